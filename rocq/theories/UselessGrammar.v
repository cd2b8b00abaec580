(** A grammar with useless rules added corresponds to the one without; and so do the lexers when
    these rules have no new tokens. *)
From Coq Require Import Permutation.
From Verif Require Import Base IsoSpec UselessSpec Regex Nfa Dfa Lex Grammar GrammarSpec GrammarProofs First FirstProofs Item ItemSpec ItemProofs
  ItemPlain Table MergeProofs TableSpec TableProofs TableFacts LexGrammar Parse Iso IsoParse IsoGrammar Useless.

Lemma tok_ex g x : In x (g_tokens g) -> exists k, tok g k x.
Proof.
  intros Hx. destruct (find_index (eqb x) (g_tokens g)) as [k|] eqn:E.
  - apply find_index_some in E as ((y & Hy & Ey) & Hmin). apply eqb_eq in Ey as <-. exists k. split; auto.
    intros j Hj Ej. apply (Hmin j) in Ej; auto. rewrite eqb_refl in Ej. discriminate.
  - exfalso. pose proof (proj1 (find_index_none _ _) E x Hx) as C. rewrite eqb_refl in C. discriminate.
Qed.
Lemma tok_one g k x y : tok g k x -> tok g k y -> x = y.
Proof. intros [H1 _] [H2 _]. congruence. Qed.
Lemma tok_first g k l x : tok g k x -> tok g l x -> k = l.
Proof.
  intros [H1 M1] [H2 M2]. destruct (Nat.lt_trichotomy k l) as [L|[E|L]]; auto; exfalso; [eapply M2|eapply M1]; eauto.
Qed.

(** A numbering of the tokens of one grammar by those of another that has them all. *)
Lemma tok_map g g' : (forall x, In x (g_tokens g) -> In x (g_tokens g')) ->
  exists K K', bij K K' /\ forall k x, tok g k x -> tok g' (K k) x.
Proof.
  intros Hs.
  set (h := fun k => match nth_error (g_tokens g) k with
                     | Some x => match find_index (eqb x) (g_tokens g') with Some j => j | None => 0 end
                     | None => 0 end).
  set (first := fun k => match nth_error (g_tokens g) k with
                     | Some x => match find_index (eqb x) (g_tokens g) with Some j => j =? k | None => false end
                     | None => false end).
  assert (Hix : forall g0 k x, tok g0 k x <-> In x (g_tokens g0) /\ find_index (eqb x) (g_tokens g0) = Some k).
  { intros g0 k x. split.
    - intros Ht. split; [destruct Ht; eauto using nth_error_In|]. destruct (find_index (eqb x) (g_tokens g0)) as [j|] eqn:E.
      + f_equal. apply (tok_first g0 j k x); auto. apply find_index_some in E as ((y & Hy & Ey) & Hmin). apply eqb_eq in Ey as <-. split; auto.
        intros i Hi Ei. apply (Hmin i) in Ei; auto. rewrite eqb_refl in Ei. discriminate.
      + destruct Ht as [Ht _]. pose proof (proj1 (find_index_none _ _) E x (nth_error_In _ _ Ht)) as C. rewrite eqb_refl in C. discriminate.
    - intros [Hx E]. destruct (tok_ex g0 x Hx) as [j Hj]. apply find_index_some in E as ((y & Hy & Ey) & Hmin). apply eqb_eq in Ey as <-. split; auto.
      intros i Hi Ei. apply (Hmin i) in Ei; auto. rewrite eqb_refl in Ei. discriminate. }
  assert (Hh : forall k x, tok g k x -> tok g' (h k) x).
  { intros k x Ht. pose proof (nth_error_In _ _ (proj1 Ht)) as Hx. unfold h. rewrite (proj1 Ht).
    destruct (tok_ex g' x (Hs x Hx)) as [j Hj]. rewrite (proj2 (proj1 (Hix _ _ _) Hj)). exact Hj. }
  assert (Hl : forall k, In k (filter first (seq 0 (length (g_tokens g)))) <-> exists x, tok g k x).
  { intros k. rewrite filter_In, in_seq. split.
    - intros [_ E]. unfold first in E. destruct (nth_error (g_tokens g) k) as [x|] eqn:Ek; [|discriminate]. exists x. apply Hix.
      split; [eauto using nth_error_In|]. destruct (find_index (eqb x) (g_tokens g)) as [j|]; [|discriminate]. apply Nat.eqb_eq in E. congruence.
    - intros (x & Ht). split; [pose proof (proj1 Ht) as Hk; assert (k < length (g_tokens g)) by (apply nth_error_Some; congruence); lia|].
      unfold first. rewrite (proj1 Ht), (proj2 (proj1 (Hix _ _ _) Ht)). apply Nat.eqb_refl. }
  destruct (extend_bij h (filter first (seq 0 (length (g_tokens g))))) as (K & K' & Hb & HK).
  - intros a b Ha Hb E. apply Hl in Ha as (x & Hx), Hb as (y & Hy). pose proof (Hh _ _ Hx) as Hx'. pose proof (Hh _ _ Hy) as Hy'.
    rewrite E in Hx'. pose proof (tok_one _ _ _ _ Hx' Hy') as <-. eapply tok_first; eauto.
  - exists K, K'. split; auto. intros k x Ht. rewrite HK; [apply Hh, Ht|apply Hl; eauto].
Qed.

Section Adds.
  Variables (ast ast' : list aprod) (extra : list (str * list sym)) (g g' : grammar).
  Hypothesis HU : adds_useless ast ast' extra.
  Hypothesis Hg : grammar_from_ast ast = Ok g.
  Hypothesis Hg' : grammar_from_ast ast' = Ok g'.

  Lemma adds_shapes : exists s, (forall A b, In (A, b) extra -> ~ needed (ast_rules ast) s A) /\
    Permutation (ast_rules ast ++ extra) (ast_rules ast') /\
    map shape (g_prods g) = (aug_name s, [SNon s]) :: ast_rules ast /\
    map shape (g_prods g') = (aug_name s, [SNon s]) :: ast_rules ast'.
  Proof using HU Hg Hg'.
    destruct HU as [HP (s & s' & Hs & Hs' & En & Hx)].
    destruct (prods_rules _ _ Hg) as (st & Hst & _ & E). destruct (prods_rules _ _ Hg') as (st' & Hst' & _ & E').
    rewrite Hs in Hst. injection Hst as <-. rewrite Hs' in Hst'. injection Hst' as <-. rewrite En in E'.
    exists (ap_name s). auto.
  Qed.

  Lemma shape_at (g0 : grammar) p n b : nth_error (map shape (g_prods g0)) p = Some (n, b) ->
    exists pr, nth_error (g_prods g0) p = Some pr /\ p_name pr = n /\ p_syms pr = b.
  Proof.
    rewrite nth_error_map. destruct (nth_error (g_prods g0) p) as [pr|]; simpl; [|discriminate]. intros E. injection E as E1 E2.
    exists pr. split; auto.
  Qed.

  (** Every rule of the small grammar is in the large one. *)
  Lemma adds_incl pr : In pr (g_prods g) -> exists pr', In pr' (g_prods g') /\ p_name pr' = p_name pr /\ p_syms pr' = p_syms pr.
  Proof using HU Hg Hg'.
    intros Hp. destruct adds_shapes as (s & _ & HP & E & E'). apply (in_map shape) in Hp. rewrite E in Hp.
    assert (Hin : In (shape pr) (map shape (g_prods g'))).
    { rewrite E'. destruct Hp as [<-|Hp]; [left; reflexivity|right]. eapply Permutation_in; [exact HP|]. apply in_or_app. left. exact Hp. }
    apply in_map_iff in Hin as (pr' & Es & Hin). exists pr'. split; auto. unfold shape in Es. injection Es as E1 E2. auto.
  Qed.

  Lemma adds_part : exists P P' K K', part g g' P P' K K' /\
    (forall p pr, nth_error (g_prods g) p = Some pr -> exists pr', nth_error (g_prods g') (P p) = Some pr' /\ p_name pr' = p_name pr /\ p_syms pr' = p_syms pr) /\
    (forall k x, tok g k x -> tok g' (K k) x).
  Proof using HU Hg Hg'.
    destruct adds_shapes as (s & Hx & HP & E & E').
    destruct (prods_rules _ _ Hg) as (st & _ & W & _). destruct (prods_rules _ _ Hg') as (st' & _ & W' & _).
    destruct (wg_tokens _ _ W) as (l & El & _ & Hl). destruct (wg_tokens _ _ W') as (l' & El' & _ & Hl').
    destruct (tok_map g g') as (K & K' & HK & Ht).
    { intros x. rewrite El, El'. intros [<-|Hin]; [left; reflexivity|right]. apply Hl in Hin as (pr & Hpr & Hxp).
      destruct (adds_incl pr Hpr) as (pr' & Hpr' & _ & Es). apply Hl'. exists pr'. rewrite Es. auto. }
    destruct (perm_bij _ _ HP) as (p & p' & [Hp1 Hp2] & Hp).
    assert (T0 : tok g 0 SEof) by (split; [rewrite El; reflexivity|intros j Hj; lia]).
    assert (T0' : tok g' 0 SEof) by (split; [rewrite El'; reflexivity|intros j Hj; lia]).
    set (P := fun n => match n with O => O | S m => S (p m) end). set (P' := fun n => match n with O => O | S m => S (p' m) end).
    assert (HPP : forall q pr, nth_error (g_prods g) q = Some pr ->
      exists pr', nth_error (g_prods g') (P q) = Some pr' /\ p_name pr' = p_name pr /\ p_syms pr' = p_syms pr).
    { intros q pr Hq. pose proof (map_nth_error shape _ _ Hq) as Hs. rewrite E in Hs. apply shape_at. rewrite E'.
      destruct q as [|q]; [exact Hs|]. simpl in Hs |- *. rewrite Hp. rewrite nth_error_app1; [exact Hs|]. apply nth_error_Some. intros C. rewrite C in Hs. discriminate. }
    (** The rules in use by the large grammar are needed by the small one. *)
    assert (Hback : forall q pr, nth_error (g_prods g') q = Some pr -> q = 0 \/ needed (ast_rules ast) s (p_name pr) ->
      exists pr', nth_error (g_prods g) (P' q) = Some pr' /\ p_name pr' = p_name pr /\ p_syms pr' = p_syms pr).
    { intros q pr Hq Hn. pose proof (map_nth_error shape _ _ Hq) as Hs. rewrite E' in Hs. apply shape_at. rewrite E.
      destruct q as [|q]; [exact Hs|]. destruct Hn as [Hn|Hn]; [discriminate|]. simpl in Hs |- *.
      rewrite <- (Hp2 q), Hp in Hs. destruct (Nat.lt_ge_cases (p' q) (length (ast_rules ast))) as [L|L].
      - rewrite nth_error_app1 in Hs; auto.
      - exfalso. rewrite nth_error_app2 in Hs by exact L. apply nth_error_In in Hs. eapply Hx; [exact Hs|exact Hn]. }
    assert (Hin : forall q pr, nth_error (g_prods g) q = Some pr -> q = 0 \/ needed (ast_rules ast) s (p_name pr) ->
      forall A, In (SNon A) (p_syms pr) -> needed (ast_rules ast) s A).
    { intros q pr Hq Hn A HA. pose proof (map_nth_error shape _ _ Hq) as Hs. rewrite E in Hs. destruct q as [|q]; simpl in Hs.
      - unfold shape in Hs. injection Hs as _ Es. rewrite <- Es in HA. destruct HA as [EA|[]]. injection EA as <-. constructor.
      - destruct Hn as [Hn|Hn]; [discriminate|]. eapply needed_rule; [exact Hn|apply nth_error_In in Hs; exact Hs|exact HA]. }
    assert (Hreach : forall q, reachable g' q -> forall pr, nth_error (g_prods g') q = Some pr -> q = 0 \/ needed (ast_rules ast) s (p_name pr)).
    { induction 1 as [|q pr r rq Hr IH Hq HA Hr']; intros pr0 Hpr0; [left; reflexivity|right].
      rewrite Hr' in Hpr0. injection Hpr0 as <-. destruct (Hback q pr Hq (IH pr Hq)) as (pr' & Hq' & En & Es).
      eapply Hin; [exact Hq'| |rewrite Es; exact HA]. destruct (IH pr Hq) as [->|Hn]; [left; reflexivity|right; rewrite En; exact Hn]. }
    exists P, P', K, K'. split; [|split; [exact HPP|exact Ht]]. constructor; auto.
    - split; intros [|n]; simpl; auto.
    - pose proof (Ht _ _ T0) as T1. eapply tok_first; eauto.
    - intros k x Hu Hk. assert (Hxg : In x (g_tokens g)).
      { rewrite El. destruct Hu as [->|(q & pr & Hr & Hq & Hxp)]; [left; reflexivity|right]. apply Hl.
        destruct (Hback q pr Hq (Hreach q Hr pr Hq)) as (pr' & Hq' & _ & Es). exists pr'. rewrite Es. eauto using nth_error_In. }
      destruct (tok_ex g x Hxg) as [k0 Hk0]. pose proof (tok_first _ _ _ _ (Ht _ _ Hk0) Hk) as <-. rewrite (bij_l _ _ HK). exact Hk0.
  Qed.

  Lemma adds_plain : plain g' -> plain g.
  Proof using HU Hg Hg'.
    intros [He Hf]. split; intros pr Hpr; destruct (adds_incl pr Hpr) as (pr' & Hpr' & _ & Es); rewrite <- Es; auto.
  Qed.
  Lemma adds_eps_free : eps_free g' -> eps_free g.
  Proof using HU Hg Hg'. intros He pr Hpr. destruct (adds_incl pr Hpr) as (pr' & Hpr' & _ & Es). rewrite <- Es; auto. Qed.
End Adds.

(** ** Lexers of token definitions that differ in their numbers only *)
Section Renumber.
  Variable K : nat -> nat.
  Definition td_map (d : token_def) : token_def := TokenDef (td_name d) (td_with_val d) (option_map K (td_idx d)).
  Definition vmap {A} (m : list (A * token_def)) : list (A * token_def) := map (fun e => (fst e, td_map (snd e))) m.
  Definition lx_map (L : lexer) : lexer := Lexer (lx_dfa L) (vmap (lx_tokens L)) (lx_accepting L).
  Definition defs_map (l : list (token_def * hir)) : list (token_def * hir) := map (fun e => (td_map (fst e), snd e)) l.

  Lemma vmap_get {A} `{Ord A} (k : A) m : map_get k (vmap m) = option_map td_map (map_get k m).
  Proof. induction m as [|[k' v] m IH]; simpl; auto. destruct (eqb k k'); simpl; auto. Qed.
  Lemma vmap_insert {A} `{Ord A} (k : A) v m : map_insert k (td_map v) (vmap m) = vmap (map_insert k v m).
  Proof. unfold map_insert. induction m as [|[k' v'] m IH]; simpl; auto. destruct (cmp k k'); simpl; auto. f_equal. exact IH. Qed.

  Lemma loop_map l : forall so eo tm,
    from_tokens_loop so eo (map (fun e => (td_map (fst e), snd e)) l) (vmap tm) =
    (fst (from_tokens_loop so eo l tm), vmap (snd (from_tokens_loop so eo l tm))).
  Proof.
    induction l as [|[d n] l IH]; intros so eo tm; [reflexivity|]. cbn [map from_tokens_loop fst snd].
    assert (G : forall ks tm, fold_left (fun m a => map_insert (a + so) (td_map d) m) ks (vmap tm) =
      vmap (fold_left (fun m a => map_insert (a + so) d m) ks tm)).
    { induction ks as [|k ks IHk]; intros tm0; [reflexivity|]. cbn [fold_left]. rewrite vmap_insert. apply IHk. }
    rewrite G, IH. destruct (from_tokens_loop _ _ l _). reflexivity.
  Qed.

  Lemma mapM_defs l : mapM (fun t => let* n := from_regex (snd t) in Ok (fst t, n)) (defs_map l) =
    rmap (map (fun e => (td_map (fst e), snd e))) (mapM (fun t : token_def * hir => let* n := from_regex (snd t) in Ok (fst t, n)) l).
  Proof.
    induction l as [|[d h] l IH]; [reflexivity|]. cbn [defs_map map mapM fst snd]. fold (defs_map l). rewrite IH.
    destruct (from_regex h); cbn [bind]; auto. destruct (mapM _ l); reflexivity.
  Qed.

  Lemma from_tokens_map l : from_tokens (defs_map l) = rmap lx_map (from_tokens l).
  Proof.
    unfold from_tokens, lex_nfa. rewrite mapM_defs. destruct (mapM _ l) as [w| |]; cbn [bind rmap]; [|reflexivity..].
    rewrite map_map. cbn [snd].
    destruct (lex_nfa_template _) as [tm| |]; cbn [bind]; [|reflexivity..].
    pose proof (loop_map w 1 (length w) []) as E. cbn [vmap map] in E. rewrite map_length. rewrite E.
    destruct (from_tokens_loop 1 (length w) w []) as [ns tmap]. cbn [fst snd bind].
    destruct (from_nfa _); reflexivity.
  Qed.

  Lemma make_tok_map L input a b s : make_tok (lx_map L) input a b s = make_tok L input a b s.
  Proof. unfold make_tok. cbn [lx_map lx_tokens]. rewrite vmap_get. destruct (map_get s (lx_tokens L)); reflexivity. Qed.
  Lemma lex_finish_map L input s : lex_finish (lx_map L) input s = lex_finish L input s.
  Proof. unfold lex_finish. destruct (ls_last s) as [[k a]|]; auto. rewrite make_tok_map. reflexivity. Qed.
  Lemma lex_step_map L input s : lex_step (lx_map L) input s = lex_step L input s.
  Proof.
    unfold lex_step. rewrite lex_finish_map. change (lx_dfa (lx_map L)) with (lx_dfa L). change (lx_accepting (lx_map L)) with (lx_accepting L).
    destruct (ls_last s) as [[k a]|]; auto. rewrite make_tok_map. reflexivity.
  Qed.
  Lemma lex_map L input : lex (lx_map L) input = lex L input.
  Proof.
    unfold lex. set (b := 2 * _). generalize (LState [] 0 0 0 None). clearbody b.
    assert (G : forall b s, run (lex_step (lx_map L) input) b s = run (lex_step L input) b s).
    { clear b. induction b as [|b IH]; intros s; cbn [run]; [apply lex_step_map|]. rewrite IH. destruct (run (lex_step L input) b s); auto. }
    intros s. rewrite G. reflexivity.
  Qed.

  Lemma def_map_map L : def_map (lx_map L) = vmap (def_map L).
  Proof.
    unfold def_map. cbn [lx_map lx_tokens].
    assert (G : forall l m, fold_left (fun m e => map_insert (td_name (snd e)) (snd e) m) (@vmap nat l) (vmap m) =
      vmap (fold_left (fun m e => map_insert (td_name (snd e)) (snd e) m) l m)).
    { induction l as [|[k d] l IH]; intros m; [reflexivity|]. change (vmap ((k, d) :: l)) with ((k, td_map d) :: vmap l).
      cbn [fold_left snd]. rewrite <- IH. f_equal. change (td_name (td_map d)) with (td_name d). apply vmap_insert. }
    exact (G (lx_tokens L) []).
  Qed.
  Lemma convert_map L ts : K 0 = 0 -> convert_tokens (lx_map L) ts = rmap (map (fun e => (fst e, K (snd e)))) (convert_tokens L ts).
  Proof.
    intros K0. unfold convert_tokens. rewrite def_map_map.
    assert (G : mapM (token_with_idx (vmap (def_map L))) ts = rmap (map (fun e => (fst e, K (snd e)))) (mapM (token_with_idx (def_map L)) ts)).
    { induction ts as [|tk ts IH]; [reflexivity|]. cbn [mapM]. rewrite IH. unfold token_with_idx at 1 3. rewrite vmap_get.
      destruct (map_get (tk_name tk) (def_map L)) as [d|]; cbn [option_map bind rmap]; [|reflexivity].
      unfold td_map. cbn [td_idx]. destruct (td_idx d) as [i|]; cbn [option_map bind rmap]; [|reflexivity].
      destruct (mapM (token_with_idx (def_map L)) ts); reflexivity. }
    rewrite G. destruct (mapM (token_with_idx (def_map L)) ts); cbn [bind rmap]; [|reflexivity..].
    rewrite map_app. cbn [map fst snd]. rewrite K0. reflexivity.
  Qed.

  Lemma tokens_from_map parse l : forall l' i i', filter is_term l = filter is_term l' ->
    (forall k k' x, nth_error l k = Some x -> nth_error l' k' = Some x -> is_term x = true -> K (i + k) = i' + k') ->
    grammar_tokens_from parse i' l' = rmap defs_map (grammar_tokens_from parse i l).
  Proof.
    induction l as [|x l IH].
    - induction l' as [|y l' IH]; intros i i' Hf HK; [reflexivity|]. cbn [filter] in Hf. destruct (is_term y) eqn:Ey; [discriminate|].
      cbn [grammar_tokens_from]. rewrite (IH i (S i') Hf); [|intros [|?] ? ? E; discriminate E]. destruct y; try discriminate. reflexivity.
    - intros l' i i' Hf HK. cbn [filter] in Hf. destruct (is_term x) eqn:Ex.
      + revert i' HK. induction l' as [|y l' IHl]; intros i' HK; [discriminate|]. cbn [filter] in Hf. destruct (is_term y) eqn:Ey.
        * injection Hf as <- Hf. cbn [grammar_tokens_from]. rewrite (IH l' (S i) (S i') Hf).
          -- pose proof (HK 0 0 x eq_refl eq_refl Ex) as E0. rewrite !Nat.add_0_r in E0.
             assert (Et : token_def_with_regex parse x i' = rmap (option_map (fun e => (td_map (fst e), snd e))) (token_def_with_regex parse x i)).
             { destruct x; simpl; try reflexivity; [|destruct (parse _); [|reflexivity]]; simpl; unfold td_map; simpl; rewrite E0; reflexivity. }
             rewrite Et. destruct (token_def_with_regex parse x i) as [[o|]| |]; cbn [bind rmap option_map]; try reflexivity;
               destruct (grammar_tokens_from parse (S i) l); reflexivity.
          -- intros k k' z Hz Hz' Ez. specialize (HK (S k) (S k') z Hz Hz' Ez). rewrite !Nat.add_succ_r in HK. exact HK.
        * assert (Ey' : token_def_with_regex parse y i' = Ok None) by (destruct y; try discriminate; reflexivity).
          change (grammar_tokens_from parse i' (y :: l')) with
            (let* o := token_def_with_regex parse y i' in let* r := grammar_tokens_from parse (S i') l' in Ok (match o with Some t => t :: r | None => r end)).
          rewrite Ey'. cbn [bind]. rewrite (IHl Hf (S i')).
          -- destruct (rmap _ _); reflexivity.
          -- intros k k' z Hz Hz' Ez. rewrite (HK k (S k') z Hz Hz' Ez). lia.
      + assert (Ex' : token_def_with_regex parse x i = Ok None) by (destruct x; try discriminate; reflexivity).
        cbn [grammar_tokens_from]. rewrite Ex'. cbn [bind]. rewrite (IH l' (S i) i' Hf).
        * destruct (grammar_tokens_from parse (S i) l); reflexivity.
        * intros k k' z Hz Hz' Ez. rewrite <- (HK (S k) k' z Hz Hz' Ez). f_equal. lia.
  Qed.
End Renumber.

Section AddsLexer.
  Variables (ast ast' : list aprod) (extra : list (str * list sym)) (g g' : grammar).
  Hypothesis HU : adds_useless ast ast' extra.
  Hypothesis Hg : grammar_from_ast ast = Ok g.
  Hypothesis Hg' : grammar_from_ast ast' = Ok g'.
  Hypothesis Hn : no_new_tokens ast extra.
  Hypothesis Hf' : eof_free g'.

  Lemma adds_lexer K parse : (forall k x, tok g k x -> tok g' (K k) x) ->
    from_grammar parse g' = rmap (lx_map K) (from_grammar parse g).
  Proof using HU Hg Hg' Hn Hf'.
    intros HK. destruct (adds_shapes _ _ _ _ _ HU Hg Hg') as (s & _ & HP & E & E').
    assert (Hf : eof_free g).
    { intros pr Hpr. destruct (adds_incl _ _ _ _ _ HU Hg Hg' pr Hpr) as (pr' & Hpr' & _ & Es). rewrite <- Es. auto. }
    destruct (prods_rules _ _ Hg) as (st & _ & W & _). destruct (prods_rules _ _ Hg') as (st' & _ & W' & _).
    destruct (wg_tokens _ _ W) as (l & El & Hs & Hl). destruct (wg_tokens _ _ W') as (l' & El' & Hs' & Hl').
    assert (Hterm : filter is_term l = filter is_term l').
    { apply ssorted_ext; try (apply ssorted_filter; assumption). intros x. rewrite !filter_In, Hl, Hl'. split.
      - intros [(pr & Hpr & Hx) Et]. split; auto. destruct (adds_incl _ _ _ _ _ HU Hg Hg' pr Hpr) as (pr' & Hpr' & _ & Es). exists pr'. rewrite Es. auto.
      - intros [(pr & Hpr & Hx) Et]. split; auto. apply (in_map shape) in Hpr. rewrite E' in Hpr.
        assert (G : exists e, In e (map shape (g_prods g)) /\ In x (snd e)).
        { rewrite E. destruct Hpr as [Ep|Hpr]; [eexists; split; [left; reflexivity|]; rewrite Ep; exact Hx|].
          apply (Permutation_in _ (Permutation_sym HP)) in Hpr. apply in_app_or in Hpr as [Hpr|Hpr]; [exists (shape pr); split; [right; exact Hpr|exact Hx]|].
          destruct (Hn _ _ x Hpr Hx) as [[n ->]|(B & c & Hc & Hxc)]; [discriminate|]. exists (B, c). split; [right; exact Hc|exact Hxc]. }
        destruct G as (e & He & Hxe). apply in_map_iff in He as (pr0 & <- & Hpr0). exists pr0. auto. }
    unfold from_grammar, grammar_tokens.
    rewrite (tokens_from_map K parse (g_tokens g) (g_tokens g') 0 0).
    - destruct (grammar_tokens_from parse 0 (g_tokens g)); cbn [bind rmap]; [|reflexivity..]. apply from_tokens_map.
    - rewrite El, El'. cbn [filter]. destruct (is_term SEof); [f_equal|]; exact Hterm.
    - intros k k' x Hk Hk' _. cbn [Nat.add].
      assert (G : forall g0 l0, g_tokens g0 = SEof :: l0 -> ssorted l0 -> (forall x, In x l0 -> exists p, In p (g_prods g0) /\ In x (p_syms p)) -> eof_free g0 ->
        forall k x, nth_error (g_tokens g0) k = Some x -> tok g0 k x).
      { intros g0 l0 E0 Hs0 Hl0 Hf0 k0 x0 Hk0. apply (tok_split g0 l0 k0 x0 E0 (ssorted_NoDup _ Hs0)). rewrite E0 in Hk0.
        destruct k0 as [|j]; [left; simpl in Hk0; split; congruence|right]. exists j. split; auto. split; auto.
        intros ->. simpl in Hk0. apply nth_error_In in Hk0. destruct (Hl0 _ Hk0) as (p & Hp & Hx). exact (Hf0 p Hp Hx). }
      eapply (tok_first g'); [apply HK; apply (G g l El Hs (fun y => proj1 (Hl y)) Hf); exact Hk|].
      apply (G g' l' El' Hs' (fun y => proj1 (Hl' y)) Hf'); exact Hk'.
  Qed.
End AddsLexer.
