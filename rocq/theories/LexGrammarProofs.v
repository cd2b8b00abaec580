(** Facts about the lexer of a grammar. *)
From Verif Require Import Base Regex Nfa NfaProofs Dfa Lex LexSpec LexNfa LexProofs
  Grammar GrammarSpec GrammarProofs LexGrammar.

(** ** Literals *)

Lemma lang_concat_lits s : forall w, Lang (HConcat (map HLit s)) w <-> w = s.
Proof.
  induction s as [|c s IH]; intros w; simpl.
  - split; [intros H; inversion H; reflexivity|intros ->; constructor].
  - split.
    + intros H. inversion H as [| | | | | | | | | | |h' hs' w1 w2 H1 H2 Ea Eb|]; subst.
      inversion H1; subst. apply IH in H2 as ->. reflexivity.
    + intros ->. apply (L_concat_cons _ _ [c] s); [constructor|]. apply IH. reflexivity.
Qed.

Lemma lit_hir_lang s w : Lang (lit_hir s) w <-> w = s.
Proof.
  destruct s as [|c [|d s]].
  - simpl. split; [intros H; inversion H; reflexivity|intros ->; constructor].
  - simpl. split; [intros H; inversion H; reflexivity|intros ->; constructor].
  - apply (lang_concat_lits (c :: d :: s)).
Qed.

(** ** The definitions of a grammar *)

Definition sym_text (x : sym) : option str := match x with SStr s | SReg s => Some s | _ => None end.

Section Defs.
  Context (parse_regex : str -> option hir).

  Definition sym_hir (x : sym) : option hir :=
    match x with SStr s => Some (lit_hir s) | SReg r => parse_regex r | _ => None end.

  Lemma grammar_tokens_from_spec l : forall k tokens, grammar_tokens_from parse_regex k l = Ok tokens ->
    forall td h, In (td, h) tokens <-> exists j x n, nth_error l j = Some x /\ sym_text x = Some n /\
      td = TokenDef n true (Some (k + j)) /\ sym_hir x = Some h.
  Proof.
    induction l as [|x l IH]; intros k tokens H td h; cbn [grammar_tokens_from] in H.
    - injection H as <-. split; [intros []|intros (j & x & n & E & _); destruct j; discriminate].
    - apply bind_ok in H as (o & Eo & H). apply bind_ok in H as (r & Er & H).
      specialize (IH _ _ Er td h). injection H as <-.
      assert (Hrest : In (td, h) r <-> exists j y n, 0 < j /\ nth_error (x :: l) j = Some y /\ sym_text y = Some n /\
                td = TokenDef n true (Some (k + j)) /\ sym_hir y = Some h).
      { rewrite IH. split.
        - intros (j & y & n & H1 & H2 & -> & H4). exists (S j), y, n. repeat split; auto; [lia|].
          f_equal. f_equal. lia.
        - intros (j & y & n & H0 & H1 & H2 & -> & H4). destruct j as [|j]; [lia|]. exists j, y, n. repeat split; auto.
          f_equal. f_equal. lia. }
      assert (Hhd : (match o with Some t => t = (td, h) | None => False end) <->
                exists n, sym_text x = Some n /\ td = TokenDef n true (Some k) /\ sym_hir x = Some h).
      { destruct x; simpl in Eo; try (injection Eo as <-; split; [intros []|intros (n & E & _); discriminate]).
        - injection Eo as <-. split.
          + intros E. injection E as <- <-. simpl. eauto.
          + intros (n & E & -> & E'). simpl in *. congruence.
        - simpl. destruct (parse_regex s) as [h'|] eqn:Ep; [|discriminate]. injection Eo as <-. split.
          + intros E. injection E as <- <-. eauto.
          + intros (n & E & -> & E'). congruence. }
      transitivity ((match o with Some t => t = (td, h) | None => False end) \/ In (td, h) r).
      { destruct o; simpl; tauto. }
      rewrite Hrest, Hhd. split.
      + intros [(n & H1 & -> & H3)|(j & y & n & _ & H)].
        * exists 0, x, n. repeat split; auto. f_equal. f_equal. lia.
        * exists j, y, n. exact H.
      + intros (j & y & n & H1 & H2 & -> & H4). destruct j as [|j].
        * left. simpl in H1. injection H1 as ->. exists n. repeat split; auto. f_equal. f_equal. lia.
        * right. exists (S j), y, n. repeat split; auto. lia.
  Qed.

  Lemma grammar_tokens_from_idx l : forall k tokens, grammar_tokens_from parse_regex k l = Ok tokens ->
    forall i j td h td' h' a b, i < j -> nth_error tokens i = Some (td, h) -> nth_error tokens j = Some (td', h') ->
      td_idx td = Some a -> td_idx td' = Some b -> a < b.
  Proof.
    induction l as [|x l IH]; intros k tokens H i j td h td' h' a b Hij Hi Hj Ha Hb; cbn [grammar_tokens_from] in H.
    - injection H as <-. destruct i; discriminate.
    - apply bind_ok in H as (o & Eo & H). apply bind_ok in H as (r & Er & H). injection H as <-.
      destruct o as [t|]; [|eapply IH; eauto].
      destruct i as [|i]; destruct j as [|j]; try lia; simpl in Hi, Hj.
      + injection Hi as ->. apply nth_error_In in Hj.
        apply (grammar_tokens_from_spec _ _ _ Er) in Hj as (m & y & n & _ & _ & -> & _).
        simpl in Hb. injection Hb as <-.
        destruct x; simpl in Eo; try discriminate.
        * injection Eo as <- _. simpl in Ha. injection Ha as <-. lia.
        * destruct (parse_regex s); [|discriminate]. injection Eo as <- _. simpl in Ha. injection Ha as <-. lia.
      + refine (IH _ _ Er i j td h td' h' a b _ Hi Hj Ha Hb). lia.
  Qed.

  (** In a grammar: definition [i] of the lexer is token [k] of the table, in increasing order. *)
  Lemma grammar_tokens_spec g tokens : grammar_tokens parse_regex g = Ok tokens ->
    forall td h, In (td, h) tokens <-> exists k x n, get_token g k = Some x /\ sym_text x = Some n /\
      td = TokenDef n true (Some k) /\ sym_hir x = Some h.
  Proof. intros H td h. apply (grammar_tokens_from_spec _ _ _ H). Qed.
End Defs.

(** ** The token map of a lexer *)

Lemma map_insert_last {V} (m : list (nat * V)) k v : (forall x, In x (keys m) -> x < k) ->
  map_insert k v m = m ++ [(k, v)].
Proof.
  unfold map_insert. induction m as [|[k' v'] m IH]; simpl; intros H; auto.
  pose proof (H k' (or_introl eq_refl)) as Hk.
  destruct (Nat.compare_spec k k'); try lia. f_equal. apply IH. intros x Hx. apply H. right; exact Hx.
Qed.

Lemma from_tokens_loop_defs l : forall so eo tmap ns tm,
  (forall td n, In (td, n) l -> accepting_states n = [1] /\ 2 <= nst n) ->
  (forall k, In k (keys tmap) -> k < so) ->
  from_tokens_loop so eo l tmap = (ns, tm) -> map snd tm = map snd tmap ++ map fst l.
Proof.
  induction l as [|[td n] l IH]; intros so eo tmap ns tm Hl Hk E; cbn [from_tokens_loop] in E.
  - injection E as <- <-. rewrite app_nil_r. reflexivity.
  - destruct (Hl td n (or_introl eq_refl)) as [Ha Hn]. rewrite Ha in E. cbn [fold_left] in E.
    assert (Ei : map_insert (1 + so) td tmap = tmap ++ [(1 + so, td)]).
    { apply map_insert_last. intros x Hx. apply Hk in Hx. lia. }
    rewrite Ei in E.
    destruct (from_tokens_loop _ _ l _) as [ns' tm'] eqn:E'. injection E as <- <-.
    assert (Hk2 : forall k, In k (keys (tmap ++ [(1 + so, td)])) -> k < so + length (states (shift_nfa n so eo))).
    { intros k Hk'. unfold keys in Hk'. rewrite map_app, in_app_iff in Hk'. simpl.
      rewrite map_length. fold (nst n). destruct Hk' as [Hk'|[<-|[]]]; simpl; [apply Hk in Hk'|]; lia. }
    rewrite (IH _ _ _ _ _ (fun td n H => Hl td n (or_intror H)) Hk2 E').
    rewrite map_app. simpl. rewrite <- app_assoc. reflexivity.
Qed.

(** The lexer keeps the definitions in order. *)
Lemma lexer_defs tokens L : from_tokens tokens = Ok L -> map snd (lx_tokens L) = map fst tokens.
Proof.
  unfold from_tokens. intros E. apply bind_ok in E as ((Nf & tmap) & E1 & E2).
  apply bind_ok in E2 as (d & _ & E3). injection E3 as <-. simpl.
  unfold lex_nfa in E1. apply bind_ok in E1 as (wn & Ew & E). apply mapM_Forall2 in Ew.
  assert (Hfr : Forall2 (fun t x => fst t = fst x /\ from_regex (snd t) = Ok (snd x)) tokens wn).
  { eapply Forall2_impl; [|exact Ew]. intros t x H. simpl in H.
    destruct (from_regex (snd t)); simpl in H; try discriminate. injection H as <-. auto. }
  apply bind_ok in E as (tmpl & _ & E).
  destruct (from_tokens_loop 1 (length wn) wn []) as [ns' tm] eqn:El. injection E as _ <-.
  apply from_tokens_loop_defs in El.
  - rewrite El. simpl. clear -Hfr. induction Hfr as [|t x ts xs [H _] HF IH]; simpl; congruence.
  - intros td n Hin. apply In_nth_error in Hin as [i Hi].
    eapply Forall2_nth_r in Hfr as ([td' h'] & H3 & H4 & H5); eauto. simpl in *.
    apply from_regex_inv in H5. destruct H5. destruct rn_accs as [k Hk]. split; auto.
    eapply accepting_states_one; eauto.
  - intros k [].
Qed.

(** The definition found by name is the last one with that name. *)
Lemma def_map_fold (l : list (nat * token_def)) : forall m, msorted m ->
  let r := fold_left (fun m e => map_insert (td_name (snd e)) (snd e) m) l m in
  msorted r /\
  forall n d, map_get n r = Some d <->
    (exists l1 l2, map snd l = l1 ++ d :: l2 /\ td_name d = n /\ forall d', In d' l2 -> td_name d' <> n) \/
    ((forall d', In d' (map snd l) -> td_name d' <> n) /\ map_get n m = Some d).
Proof.
  induction l as [|[k e] l IH]; intros m Hm; simpl.
  - split; auto. intros n d. split.
    + intros H. right. split; auto.
    + intros [(l1 & l2 & E & _)|[_ H]]; auto. destruct l1; discriminate.
  - destruct (IH _ (map_insert_sorted (td_name e) e m Hm)) as [Hs H]. split; auto.
    intros n d. rewrite H. split.
    + intros [(l1 & l2 & E & H1 & H2)|[H1 H2]].
      * left. exists (e :: l1), l2. rewrite E. auto.
      * destruct (ord_dec n (td_name e)) as [->|Hne].
        -- rewrite map_get_insert_same in H2 by exact Hm. injection H2 as ->.
           left. exists [], (map snd l). auto.
        -- rewrite map_get_insert_other in H2 by exact Hne. right. split; auto.
           intros d' [<-|Hd]; auto.
    + intros [(l1 & l2 & E & H1 & H2)|[H1 H2]].
      * destruct l1 as [|x l1]; simpl in E; injection E as <- E.
        -- right. subst l2. split; [exact H2|]. rewrite <- H1. apply map_get_insert_same, Hm.
        -- left. exists l1, l2. auto.
      * right. split; [intros d' Hd; apply H1; auto|].
        rewrite map_get_insert_other; auto. intros ->. apply (H1 e); auto.
Qed.

Lemma def_map_get L n d : map_get n (def_map L) = Some d <->
  exists l1 l2, map snd (lx_tokens L) = l1 ++ d :: l2 /\ td_name d = n /\ forall d', In d' l2 -> td_name d' <> n.
Proof.
  destruct (def_map_fold (lx_tokens L) [] I) as [_ H]. unfold def_map. rewrite H. split.
  - intros [H1|[_ H1]]; [exact H1|discriminate].
  - auto.
Qed.

Lemma last_named (l : list token_def) n : (exists d, In d l /\ td_name d = n) ->
  exists l1 d l2, l = l1 ++ d :: l2 /\ td_name d = n /\ forall d', In d' l2 -> td_name d' <> n.
Proof.
  induction l as [|x l IH]; intros (d & Hd & Hn); [destruct Hd|].
  destruct (existsb (fun e => eqb (td_name e) n) l) eqn:E.
  - apply existsb_exists in E as (e & He & Ee). apply eqb_eq in Ee.
    destruct IH as (l1 & d' & l2 & -> & H1 & H2); [eauto|]. exists (x :: l1), d', l2. auto.
  - assert (Hno : forall e, In e l -> td_name e <> n).
    { intros e He C. rewrite <- not_true_iff_false in E. apply E. apply existsb_exists.
      exists e. split; auto. apply eqb_eq, C. }
    destruct Hd as [->|Hd]; [|exfalso; eapply Hno; eauto]. exists [], d, l. auto.
Qed.

(** ** Statements used by the properties *)

Lemma token_table ast g : grammar_from_ast ast = Ok g ->
  get_token g 0 = Some SEof /\
  (forall x, (exists p, In p (g_prods g) /\ In x (p_syms p)) <-> exists i, 0 < i /\ get_token g i = Some x) /\
  (forall i j x, 0 < i -> 0 < j -> get_token g i = Some x -> get_token g j = Some x -> i = j) /\
  (forall x i, get_token_idx g x = Some i -> get_token g i = Some x) /\
  (forall x, get_token_idx g x = None -> forall i, get_token g i <> Some x) /\
  (forall i j a b, get_token g i = Some (SStr a) -> get_token g j = Some (SNon b) -> i < j) /\
  (forall i j a b, get_token g i = Some (SStr a) -> get_token g j = Some (SReg b) -> i < j) /\
  (forall i j a b, get_token g i = Some (SNon a) -> get_token g j = Some (SReg b) -> i < j).
Proof.
  intros Hg. destruct (grammar_from_ast_ok _ _ Hg) as (st & _ & W & _).
  destruct (wg_tokens _ _ W) as (l & El & Hs & Hin). unfold get_token. rewrite El.
  assert (Hlt : forall i j x y, nth_error l i = Some x -> nth_error l j = Some y -> cmp x y = Lt -> i < j).
  { intros i j x y Hi Hj Hc. destruct (Nat.lt_trichotomy i j) as [H|[-> |H]]; auto; exfalso.
    - rewrite Hi in Hj. injection Hj as ->. exact (cmp_lt_irrefl _ Hc).
    - apply nth_error_split in Hi as (l1 & l2 & -> & <-). rewrite nth_error_app1 in Hj by exact H.
      apply ssorted_app in Hs as (_ & _ & Ho). specialize (Ho y x (nth_error_In _ _ Hj) (or_introl eq_refl)).
      apply (cmp_lt_irrefl x). eapply cmp_trans; eauto. }
  split; [reflexivity|]. split; [|split; [|split; [|split; [|split; [|split]]]]].
  - intros x. rewrite <- Hin. split.
    + intros H. apply In_nth_error in H as [i Hi]. exists (S i). split; [lia|exact Hi].
    + intros (i & H0 & Hi). destruct i; [lia|]. simpl in Hi. eauto using nth_error_In.
  - intros i j x Hi0 Hj0 Hi Hj. destruct i; [lia|]. destruct j; [lia|]. simpl in *. f_equal.
    eapply (proj1 (NoDup_nth_error l)); [apply ssorted_NoDup, Hs|apply nth_error_lt in Hi; exact Hi|congruence].
  - intros x i H. apply get_token_of_idx in H. unfold get_token in H. rewrite El in H. exact H.
  - intros x H i C. apply nth_error_In in C. rewrite <- El in C.
    apply get_token_idx_In in C as [k Hk]. congruence.
  - intros [|i] [|j] a b H1 H2; try discriminate. simpl in *.
    pose proof (Hlt i j _ _ H1 H2 eq_refl). lia.
  - intros [|i] [|j] a b H1 H2; try discriminate. simpl in *.
    pose proof (Hlt i j _ _ H1 H2 eq_refl). lia.
  - intros [|i] [|j] a b H1 H2; try discriminate. simpl in *.
    pose proof (Hlt i j _ _ H1 H2 eq_refl). lia.
Qed.

Lemma ssorted_nth (l : list nat) : ssorted l ->
  forall i j a b, i < j -> nth_error l i = Some a -> nth_error l j = Some b -> a < b.
Proof.
  induction l as [|x l IH]; intros Hs i j a b Hij Hi Hj; [destruct i; discriminate|].
  destruct Hs as [Hx Hs]. destruct i as [|i]; destruct j as [|j]; try lia; simpl in *.
  - injection Hi as <-. apply Nat.compare_lt_iff. apply Hx. eauto using nth_error_In.
  - eapply IH; [exact Hs| |exact Hi|exact Hj]. lia.
Qed.

Lemma prods_pairs ast :
  flat_map (fun p => map (from_ast p) (ap_bodies p)) ast =
  map (fun pb => from_ast (fst pb) (snd pb)) (flat_map (fun p => map (pair p) (ap_bodies p)) ast).
Proof.
  induction ast as [|p ast IH]; simpl; auto. rewrite map_app, map_map, IH. reflexivity.
Qed.

Lemma productions_spec ast :
  ((forall p, In p ast -> ap_start p = false) -> grammar_from_ast ast = Panic PNoStart) /\
  forall ast1 st ast2, ast = ast1 ++ st :: ast2 -> ap_start st = true ->
    (forall p, In p ast1 -> ap_start p = false) ->
  exists g, grammar_from_ast ast = Ok g /\ g_start g = ap_name st ++ [39%N] /\
    get_production g 0 = Some (Production (ap_name st ++ [39%N]) [SNon (ap_name st)] None None) /\
    (forall k, get_production g (S k) =
       match nth_error (flat_map (fun p => map (pair p) (ap_bodies p)) ast) k with
       | Some (p, b) => Some (Production (ap_name p) (map lower (ab_syms b)) (Some (ab_fn b)) (Some (ap_ts p)))
       | None => None
       end) /\
    (forall n, (exists i p, get_production g i = Some p /\ p_name p = n) ->
       exists ps, production_iter g n = Ok ps /\ production_indices g n = Some (map fst ps) /\
         (forall i j a b, i < j -> nth_error (map fst ps) i = Some a -> nth_error (map fst ps) j = Some b -> a < b) /\
         forall i p, In (i, p) ps <-> get_production g i = Some p /\ p_name p = n) /\
    (forall n, (forall i p, get_production g i = Some p -> p_name p <> n) ->
       production_iter g n = Panic PUnwrapNone /\ production_indices g n = None).
Proof.
  split.
  - intros H. unfold grammar_from_ast. destruct (find ap_start ast) as [st|] eqn:E; auto.
    apply find_some in E as [Hi Hs]. rewrite (H _ Hi) in Hs. discriminate.
  - intros ast1 st ast2 East Hst Hno.
    destruct (grammar_from_ast_total ast) as [g Hg].
    { exists st. split; auto. rewrite East. apply in_or_app; right; left; reflexivity. }
    exists g. split; [exact Hg|].
    destruct (grammar_from_ast_ok _ _ Hg) as (st' & Ef & W & Es & Ep).
    assert (st' = st) as ->.
    { rewrite East in Ef. clear -Ef Hst Hno. induction ast1 as [|p l IH]; simpl in Ef.
      - rewrite Hst in Ef. congruence.
      - rewrite (Hno p (or_introl eq_refl)) in Ef. apply IH; auto. intros q Hq. apply Hno. right; exact Hq. }
    split; [exact Es|]. unfold get_production. split; [rewrite Ep; reflexivity|]. split; [|split].
    + intros k. rewrite Ep. simpl. rewrite prods_pairs, nth_error_map.
      destruct (nth_error _ k) as [[p b]|]; reflexivity.
    + intros n (i & p & Hi & Hn).
      destruct (proj1 (production_iter_defined _ _ W n)) as [ps Eps]; [eauto using nth_error_In|].
      exists ps. split; [exact Eps|]. destruct (production_iter_ok _ _ W _ _ Eps) as (_ & Hs & Hin).
      split; [|split; [apply ssorted_nth, Hs|exact Hin]].
      unfold production_iter, production_indices in *. destruct (map_get n (g_names g)) as [idxs|] eqn:E; [|discriminate].
      injection Eps as <-. f_equal. destruct (wg_names _ _ W _ _ E) as (_ & _ & Hi').
      assert (F : Forall2 (fun i ip => fst ip = i /\ nth_error (g_prods g) i = Some (snd ip)) idxs (prod_iter (g_prods g) idxs)).
      { apply prod_iter_all. intros j Hj. apply Hi' in Hj as (q & Hq & _). apply nth_error_lt in Hq; exact Hq. }
      clear -F. induction F as [|a [b q] l l' [H _] F IH]; simpl in *; congruence.
    + intros n Hn. unfold production_iter, production_indices.
      destruct (map_get n (g_names g)) as [idxs|] eqn:E; auto. exfalso.
      destruct (wg_names _ _ W _ _ E) as (Hne & _ & Hi'). destruct idxs as [|i idxs]; [tauto|].
      destruct (proj1 (Hi' i) (or_introl eq_refl)) as (p & Hp & Hpn). eapply Hn; eauto.
Qed.

Lemma from_grammar_inv parse g L : from_grammar parse g = Ok L ->
  exists tokens, grammar_tokens parse g = Ok tokens /\ from_tokens tokens = Ok L.
Proof. unfold from_grammar. intros H. apply bind_ok in H. exact H. Qed.

(** The definition a name is converted with. *)
Lemma def_map_grammar parse ast g tokens L : grammar_from_ast ast = Ok g ->
  grammar_tokens parse g = Ok tokens -> from_tokens tokens = Ok L ->
  forall n,
  (In (SStr n) (g_tokens g) \/ In (SReg n) (g_tokens g) ->
   exists k, map_get n (def_map L) = Some (TokenDef n true (Some k)) /\
     (get_token g k = Some (SReg n) \/ (get_token g k = Some (SStr n) /\ ~ In (SReg n) (g_tokens g)))) /\
  (~ In (SStr n) (g_tokens g) -> ~ In (SReg n) (g_tokens g) -> map_get n (def_map L) = None).
Proof.
  intros Hg Et EL n. pose proof (lexer_defs _ _ EL) as Ed.
  destruct (token_table _ _ Hg) as (_ & _ & _ & _ & _ & _ & Hsr & _).
  assert (Hdef : forall d, In d (map fst tokens) <-> exists k x m, get_token g k = Some x /\ sym_text x = Some m /\
            d = TokenDef m true (Some k)).
  { intros d. split.
    - intros H. apply in_map_iff in H as ([d' h] & <- & H).
      apply (grammar_tokens_spec _ _ _ Et) in H as (k & x & m & H1 & H2 & -> & _). simpl. eauto 6.
    - intros (k & x & m & H1 & H2 & ->).
      assert (exists h, sym_hir parse x = Some h) as [h Hh].
      { destruct x; try discriminate; simpl; eauto. clear -Et H1.
        unfold grammar_tokens, get_token in *. revert Et H1. generalize 0 as i. revert k tokens.
        induction (g_tokens g) as [|y l IH]; intros k tokens i Et Hk; [destruct k; discriminate|].
        cbn [grammar_tokens_from] in Et. apply bind_ok in Et as (o & Eo & Et).
        apply bind_ok in Et as (r & Er & Et). destruct k as [|k]; simpl in Hk.
        - injection Hk as ->. simpl in Eo. destruct (parse s); [eauto|discriminate].
        - eapply IH; eauto. }
      change (TokenDef m true (Some k)) with (fst (TokenDef m true (Some k), h)). apply in_map.
      apply (grammar_tokens_spec _ _ _ Et). exists k, x, m. auto. }
  split.
  - intros Hn.
    assert (Hex : exists d, In d (map snd (lx_tokens L)) /\ td_name d = n).
    { rewrite Ed. destruct Hn as [Hn|Hn]; apply In_nth_error in Hn as [k Hk];
        exists (TokenDef n true (Some k)); (split; [apply Hdef|reflexivity]); do 3 eexists;
        (split; [exact Hk|split; reflexivity]). }
    destruct (last_named _ _ Hex) as (l1 & d & l2 & E & Hd & Hl2).
    assert (Hdin : In d (map fst tokens)) by (rewrite <- Ed, E; apply in_or_app; right; left; reflexivity).
    apply Hdef in Hdin as (k & x & m & Hk & Hx & ->). simpl in Hd. subst m.
    exists k. split; [apply def_map_get; eauto 6|].
    destruct x; try discriminate; injection Hx as ->; auto.
    right. split; auto. intros Hr. apply In_nth_error in Hr as [j Hj].
    assert (Hkj : k < j) by (eapply Hsr; eauto).
    assert (Hjin : In (TokenDef n true (Some j)) (map fst tokens)).
    { apply Hdef. exists j, (SReg n), n. auto. }
    rewrite <- Ed, E in Hjin. apply in_app_or in Hjin as [Hj1|[Hj1|Hj1]].
    + (* earlier definitions have smaller indices *)
      apply In_nth_error in Hj1 as [a Ha].
      rewrite Ed in E.
      assert (Ha' : nth_error (map fst tokens) a = Some (TokenDef n true (Some j))).
      { rewrite E, nth_error_app1; auto. apply nth_error_lt in Ha; exact Ha. }
      assert (Hb' : nth_error (map fst tokens) (length l1) = Some (TokenDef n true (Some k))).
      { rewrite E, nth_error_app2, Nat.sub_diag; auto. }
      rewrite nth_error_map in Ha', Hb'.
      destruct (nth_error tokens a) as [[da ha]|] eqn:Ea; [|discriminate].
      destruct (nth_error tokens (length l1)) as [[db hb]|] eqn:Eb; [|discriminate].
      simpl in Ha', Hb'. injection Ha' as ->. injection Hb' as ->.
      assert (j < k); [|lia].
      eapply (grammar_tokens_from_idx _ _ _ _ Et a (length l1)); [|exact Ea|exact Eb|reflexivity|reflexivity].
      apply nth_error_lt in Ha; exact Ha.
    + injection Hj1 as ->. lia.
    + apply (Hl2 _ Hj1). reflexivity.
  - intros H1 H2. destruct (map_get n (def_map L)) as [d|] eqn:E; auto. exfalso.
    apply def_map_get in E as (l1 & l2 & E & Hd & _).
    assert (Hdin : In d (map fst tokens)) by (rewrite <- Ed, E; apply in_or_app; right; left; reflexivity).
    apply Hdef in Hdin as (k & x & m & Hk & Hx & ->). simpl in Hd. subst m.
    apply nth_error_In in Hk. destruct x; try discriminate; injection Hx as ->; auto.
Qed.

Lemma token_with_idx_some m t k : map_get (tk_name t) m = Some (TokenDef (tk_name t) true (Some k)) ->
  token_with_idx m t = Ok (t, k).
Proof. unfold token_with_idx. intros ->. reflexivity. Qed.
Lemma token_with_idx_none m t : map_get (tk_name t) m = None -> token_with_idx m t = Panic PUnwrapNone.
Proof. unfold token_with_idx. intros ->. reflexivity. Qed.

Lemma convert_characterised parse ast g L : grammar_from_ast ast = Ok g -> from_grammar parse g = Ok L ->
  forall ts,
  ((forall t, In t ts -> In (SStr (tk_name t)) (g_tokens g) \/ In (SReg (tk_name t)) (g_tokens g)) ->
   exists conv, convert_tokens L ts = Ok (conv ++ [(Token eof_name None, 0)]) /\ map fst conv = ts /\
     forall t k, In (t, k) conv ->
       get_token g k = Some (SReg (tk_name t)) \/
       (get_token g k = Some (SStr (tk_name t)) /\ ~ In (SReg (tk_name t)) (g_tokens g))) /\
  ((exists t, In t ts /\ ~ In (SStr (tk_name t)) (g_tokens g) /\ ~ In (SReg (tk_name t)) (g_tokens g)) ->
   convert_tokens L ts = Panic PUnwrapNone).
Proof.
  intros Hg HL. destruct (from_grammar_inv _ _ _ HL) as (tokens & Et & EL).
  pose proof (def_map_grammar _ _ _ _ _ Hg Et EL) as Hm.
  assert (Hin : forall x, In x (g_tokens g) \/ ~ In x (g_tokens g)).
  { intros x. destruct (in_dec ord_dec x (g_tokens g)); auto. }
  induction ts as [|t ts [IH1 IH2]].
  - split; [|intros (t & [] & _)]. intros _. exists []. split; [reflexivity|]. split; [reflexivity|]. intros t k [].
  - unfold convert_tokens in *. cbn [mapM]. split.
    + intros H. destruct (Hm (tk_name t)) as [Hd _].
      destruct (Hd (H t (or_introl eq_refl))) as (k & Ek & Hk). rewrite (token_with_idx_some _ _ _ Ek). cbn [bind].
      destruct IH1 as (conv & Ec & Ef & Hc); [intros; apply H; right; assumption|].
      apply bind_ok in Ec as (r & Er & Ec). injection Ec as Ec. apply app_inj_tail in Ec as [-> _].
      rewrite Er. cbn [bind]. exists ((t, k) :: conv). split; [reflexivity|]. split; [simpl; congruence|].
      intros t' k' [E|Hc']; [injection E as <- <-; exact Hk|auto].
    + intros (t' & Ht & H1 & H2).
      destruct (Hin (SStr (tk_name t))) as [Ha|Ha]; [|destruct (Hin (SReg (tk_name t))) as [Hb|Hb]].
      * destruct (Hm (tk_name t)) as [Hd _]. destruct (Hd (or_introl Ha)) as (k & Ek & _). rewrite (token_with_idx_some _ _ _ Ek). cbn [bind].
        destruct Ht as [<-|Ht]; [tauto|].
        specialize (IH2 (ex_intro _ t' (conj Ht (conj H1 H2)))).
        destruct (mapM (token_with_idx (def_map L)) ts); simpl in IH2 |- *; congruence.
      * destruct (Hm (tk_name t)) as [Hd _]. destruct (Hd (or_intror Hb)) as (k & Ek & _). rewrite (token_with_idx_some _ _ _ Ek). cbn [bind].
        destruct Ht as [<-|Ht]; [tauto|].
        specialize (IH2 (ex_intro _ t' (conj Ht (conj H1 H2)))).
        destruct (mapM (token_with_idx (def_map L)) ts); simpl in IH2 |- *; congruence.
      * destruct (Hm (tk_name t)) as [_ Hd]. rewrite (token_with_idx_none _ _ (Hd Ha Hb)). reflexivity.
Qed.

Lemma token_of_name tokens input x tk : token_of tokens input x = Ok tk ->
  exists td h, nth_error tokens (snd (fst x)) = Some (td, h) /\ tk_name tk = td_name td.
Proof.
  destruct x as [[pos i] u]. simpl. destruct (nth_error tokens i) as [[td h]|]; [|discriminate].
  intros H. exists td, h. split; auto. destruct (td_with_val td).
  - apply bind_ok in H as (v & _ & H). injection H as <-. reflexivity.
  - injection H as <-. reflexivity.
Qed.

Lemma own_index parse ast g tokens L : grammar_from_ast ast = Ok g ->
  grammar_tokens parse g = Ok tokens -> from_grammar parse g = Ok L ->
  (forall s, ~ (In (SStr s) (g_tokens g) /\ In (SReg s) (g_tokens g))) ->
  forall input, exists ts, (lex L input = mapM (token_of tokens input) ts /\
    (ascii input -> lex L input = Ok (map (plain_token tokens) ts))) /\
    forall out, lex L input = Ok out ->
    exists conv, convert_tokens L out = Ok (conv ++ [(Token eof_name None, 0)]) /\ map fst conv = out /\
      Forall2 (fun x c => exists td h, nth_error tokens (snd (fst x)) = Some (td, h) /\ Lang h (snd x) /\
                 td_idx td = Some (snd c)) ts conv.
Proof.
  intros Hg Et HL Hno input. destruct (from_grammar_inv _ _ _ HL) as (tokens' & Et' & EL).
  rewrite Et in Et'. injection Et' as <-.
  pose proof (def_map_grammar _ _ _ _ _ Hg Et EL) as Hm.
  destruct (token_table _ _ Hg) as (_ & _ & Huniq & _).
  destruct (lex_any tokens L input EL) as (ts & r & _ & Hin & Hlex & Ha).
  exists ts. split; [auto|]. intros out Hout. rewrite Hlex in Hout. apply mapM_Forall2 in Hout.
  assert (G : exists conv, mapM (token_with_idx (def_map L)) out = Ok conv /\ map fst conv = out /\
      Forall2 (fun x c => exists td h, nth_error tokens (snd (fst x)) = Some (td, h) /\ Lang h (snd x) /\
                 td_idx td = Some (snd c)) ts conv).
  { clear Hlex Ha. induction Hout as [|x tk ts out Hx HF IH].
    - exists []. split; [reflexivity|]. split; [reflexivity|constructor].
    - destruct IH as (conv & E1 & E2 & E3); [intros; eapply Hin; right; eassumption|].
      destruct (token_of_name _ _ _ _ Hx) as (td & h & Hnth & Hname).
      destruct x as [[p i] u]. simpl in Hnth.
      destruct (Hin p i u (or_introl eq_refl)) as (_ & td' & h' & Hnth' & HL').
      rewrite Hnth in Hnth'. injection Hnth' as <- <-.
      pose proof (nth_error_In _ _ Hnth) as Hi.
      apply (grammar_tokens_spec _ _ _ Et) in Hi as (k & y & n & Hk & Hy & -> & _). simpl in Hname.
      destruct (Hm n) as [Hd _].
      destruct Hd as (k' & Ek & Hk').
      { apply nth_error_In in Hk. destruct y; try discriminate; injection Hy as ->; auto. }
      assert (k' = k) as ->.
      { assert (H0 : forall j z, get_token g j = Some z -> z <> SEof -> 0 < j).
        { intros [|j] z Hz Hne; [|lia]. destruct (token_table _ _ Hg) as (H0 & _).
          rewrite H0 in Hz. congruence. }
        assert (Hky : get_token g k' = Some y).
        { destruct y; try discriminate; injection Hy as ->.
          - destruct Hk' as [Hk'|[Hk' _]]; auto. exfalso. apply (Hno n).
            split; eauto using nth_error_In.
          - destruct Hk' as [Hk'|[_ Hk']]; auto. exfalso. apply Hk'. eauto using nth_error_In. }
        assert (y <> SEof) by (intros ->; discriminate).
        eapply Huniq; eauto. }
      exists ((tk, k) :: conv). cbn [mapM]. rewrite <- Hname in Ek. rewrite (token_with_idx_some _ _ _ Ek). cbn [bind].
      rewrite E1. cbn [bind]. split; [reflexivity|]. split; [simpl; congruence|].
      constructor; [|exact E3]. exists (TokenDef n true (Some k)), h. simpl. auto. }
  destruct G as (conv & E1 & E2 & E3). exists conv. unfold convert_tokens. rewrite E1. simpl. auto.
Qed.

Lemma literal_first parse ast g tokens L : grammar_from_ast ast = Ok g ->
  grammar_tokens parse g = Ok tokens -> from_grammar parse g = Ok L -> split_refines (map snd tokens) ->
  forall input, exists ts, (lex L input = mapM (token_of tokens input) ts /\
    (ascii input -> lex L input = Ok (map (plain_token tokens) ts))) /\
    forall pos i u, In (pos, i, u) ts ->
      (In (SStr u) (g_tokens g) -> exists k h,
         nth_error tokens i = Some (TokenDef u true (Some k), h) /\ get_token g k = Some (SStr u)) /\
      (forall td h k s, nth_error tokens i = Some (td, h) -> td_idx td = Some k ->
         get_token g k = Some (SStr s) -> u = s).
Proof.
  intros Hg Et HL Hn input. destruct (from_grammar_inv _ _ _ HL) as (tokens' & Et' & EL).
  rewrite Et in Et'. injection Et' as <-.
  destruct (token_table _ _ Hg) as (_ & _ & _ & _ & _ & _ & Hsr & _).
  destruct (lex_exact tokens L input EL Hn) as (lv & ts & r & HT & Hlex & Ha & _).
  exists ts. split; [auto|]. intros pos i u Hin.
  destruct (tokenize_longest _ _ _ _ _ _ HT pos i u Hin) as (a & b & _ & _ & (_ & (((h & Hh & Hl) & Hmin) & _))).
  rewrite nth_error_map in Hh. destruct (nth_error tokens i) as [[td h']|] eqn:Ei; [|discriminate].
  simpl in Hh. injection Hh as ->.
  pose proof (nth_error_In _ _ Ei) as Hi.
  apply (grammar_tokens_spec _ _ _ Et) in Hi as (k & x & n & Hk & Hx & Etd & Hh).
  split.
  - intros Hu. apply In_nth_error in Hu as [j Hj].
    assert (Hlit : In (TokenDef u true (Some j), lit_hir u) tokens).
    { apply (grammar_tokens_spec _ _ _ Et). exists j, (SStr u), u. auto. }
    destruct x; try discriminate; injection Hx as ->.
    + (* a literal definition whose language contains u *)
      simpl in Hh. injection Hh as <-. apply lit_hir_lang in Hl as ->. subst td. eauto.
    + (* a regex definition: but the literal comes first *)
      exfalso. apply In_nth_error in Hlit as [m Hm].
      assert (m < i).
      { destruct (Nat.lt_trichotomy m i) as [H|[-> |H]]; auto; exfalso.
        - rewrite Ei in Hm. injection Hm as Hm _. subst td. injection Hm as _ ->.
          unfold get_token in Hk. rewrite Hj in Hk. discriminate.
        - assert (k < j).
          { eapply (grammar_tokens_from_idx _ _ _ _ Et i m); eauto. subst td. reflexivity. }
          assert (j < k) by (eapply Hsr; eauto). lia. }
      apply (Hmin m (lit_hir u)); auto.
      * rewrite nth_error_map, Hm. reflexivity.
      * apply lit_hir_lang. reflexivity.
  - intros td' h' k' s E1 E2 E3. injection E1 as <- <-. subst td. simpl in E2. injection E2 as <-.
    rewrite Hk in E3. injection E3 as ->. simpl in Hh. injection Hh as <-.
    apply lit_hir_lang in Hl. exact Hl.
Qed.
