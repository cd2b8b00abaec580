(** The TypeScript lexer simulates the Rust lexer step by step. *)
From Coq Require Import Ascii String.
From Verif Require Import Base Regex Nfa NfaProofs Dfa DfaProofs Lex LexSpec LexLoop LexNfa LexProofs Grammar LexGrammar Text
  TsText TsTextFacts TsScan TsTables TsTablesFacts LexGen LexGenProofs LexGenLexer Lisp PropsLexGen TsUtil PropsTsUtil TsLex.
Local Open Scope list_scope.

(** Lock-step simulation of two loops. *)
Lemma run_sim {S1 R1 S2 R2} (f : S1 -> S1 + R1) (g : S2 -> S2 + R2) (R : S1 -> S2 -> Prop) (Q : R1 -> R2 -> Prop) :
  (forall s t, R s t -> match f s, g t with inl s', inl t' => R s' t' | inr a, inr b => Q a b | _, _ => False end) ->
  forall b s t, R s t -> match run f b s, run g b t with inl s', inl t' => R s' t' | inr a, inr b => Q a b | _, _ => False end.
Proof.
  intros H. induction b as [|b IH]; intros s t HR; cbn [run]; [apply H; auto|].
  specialize (IH s t HR) as IH1. destruct (run f b s), (run g b t); try contradiction; [apply IH; exact IH1|exact IH1].
Qed.

Lemma range_contains size r c : (N.to_nat c <= size) -> (N.to_nat (fst r) <= size) ->
  RangeContains size r (N.to_nat c) = matches r c.
Proof.
  intros Hc Hf. destruct r as [lo hi]. unfold RangeContains, matches. cbn [fst snd] in *.
  destruct (C44_compare size (N.to_nat c) (N.to_nat lo) Hc Hf) as (-> & _). cbn [may_be_true]. f_equal.
  - destruct (Nat.leb_spec (N.to_nat lo) (N.to_nat c)), (N.leb_spec lo c); try reflexivity; lia.
  - destruct (le_lt_dec (N.to_nat hi) size) as [Hh|Hh].
    + destruct (C44_compare size (N.to_nat c) (N.to_nat hi) Hc Hh) as (_ & _ & _ & -> & _). cbn [may_be_true].
      destruct (Nat.ltb_spec (N.to_nat c) (N.to_nat hi)), (N.ltb_spec c hi); try reflexivity; lia.
    + assert (H : may_be_true (Lt size (Some (N.to_nat c)) (Some (N.to_nat hi))) = true).
      { unfold Lt, extends, GtImpl. destruct (Nat.eqb_spec (N.to_nat c) (N.to_nat hi)); [lia|].
        rewrite gt_lit_out by exact Hh. destruct (N.to_nat c =? 0); reflexivity. }
      rewrite H. destruct (N.ltb_spec c hi); [reflexivity|lia].
Qed.

Lemma next_state size c : (N.to_nat c <= size) -> forall es i, i + length es <= size ->
  (forall e, In e es -> N.to_nat (fst (de_label e)) <= size) ->
  NextState size (N.to_nat c) (map de_label es) (map (fun e => N.of_nat (de_to e)) es) (Some i) =
  match find (fun e => matches (de_label e) c) es with Some e => NextTo (de_to e) | None => NextUndef end.
Proof.
  intros Hc. induction es as [|e es IH]; intros i Hi He; cbn [map NextState find tl]; [reflexivity|].
  rewrite range_contains by (auto; apply He; left; auto). destruct (matches (de_label e) c).
  - rewrite Nnat.Nat2N.id. reflexivity.
  - cbn [Succ length] in *. destruct (Nat.ltb_spec i size); [|lia]. apply IH; [lia|]. intros e' H'. apply He. right. auto.
Qed.

(** The token of the Rust lexer and the type of the TypeScript lexer say the same. *)
Definition same_token (t : token) (u : ts_tok) : Prop :=
  exists kind, unq 34 (tk_name t) = Some kind /\ u = TTok kind (option_map TLit (tk_val t)).

(** A lexer small enough for the arithmetic tables. *)
Definition fits (size : nat) (L : lexer) : Prop :=
  127 <= size /\ length (d_edges (lx_dfa L)) <= size /\
  forall e, In e (d_edges (lx_dfa L)) -> (fst (de_label e) <= N.of_nat size)%N.

Lemma filter_len {A} (f : A -> bool) l : length (filter f l) <= length l.
Proof. induction l; cbn [filter]; auto. destruct (f a); cbn [length]; lia. Qed.

Section Sim.
  Variables (tokens : list (token_def * hir)) (L : lexer) (size : nat) (chars : list (N * N)) (T : lex_tables) (input : list N).
  Hypothesis HL : from_tokens tokens = Ok L.
  Hypothesis Hfit : fits size L.
  Hypothesis Hchars : forall c, In c input -> map_get c chars = Some c.
  Hypothesis Hsmall : forall c, In c input -> (c <= N.of_nat size)%N.
  Hypothesis Hlen : length input <= size.
  Hypothesis Tlen : length (lt_states T) = length (d_first (lx_dfa L)).
  Hypothesis Tst : forall i s, nth_error (lt_states T) i = Some s ->
     exists oes, d_edge_iter (lx_dfa L) i = Ok oes /\
     let es := match oes with Some es => es | None => [] end in
     tl_to s = map (fun e => N.of_nat (de_to e)) es /\ tl_labels s = map de_label es /\
     (tl_accepting s = true <-> emitted L i <> None).
  Hypothesis Tdef : forall i td, emitted L i = Some td ->
     exists kind, token_def_of T (N.of_nat i) = Some (kind, td_with_val td) /\ unq 34 (td_name td) = Some kind.

  Definition last_rel (o : option (nat * nat)) (p : option (nat * nat)) (b f : nat) : Prop :=
    match o, p with
    | None, None => True
    | Some (k, a), Some (k', q) => k = k' /\ b <= k < f /\ exists td, map_get a (lx_tokens L) = Some td /\ emitted L q = Some td
    | _, _ => False
    end.
  Definition sim (s : lstate) (t : xstate) : Prop :=
    x_state t = ls_state s /\ ls_state s < length (d_first (lx_dfa L)) /\
    x_begin t = ls_begin s /\ x_forward t = ls_forward s /\ ls_forward s <= length input /\ ls_begin s <= ls_forward s /\
    last_rel (ls_last s) (x_last t) (ls_begin s) (ls_forward s) /\
    Forall2 same_token (ls_tokens s) (rev (x_tokens t)).

  Lemma make_sim b k a q td : b <= k -> k < length input -> map_get a (lx_tokens L) = Some td -> emitted L q = Some td ->
    exists t, make_char L input b k a = Ok t /\ same_token t (TokenDefToToken size T input q b k).
  Proof.
    intros Hb Hk Ha Hq. destruct (Tdef q td Hq) as (kind & Hd & Hu). unfold make_char, TokenDefToToken. rewrite Ha, Hd.
    destruct (td_with_val td).
    - eexists. split; [reflexivity|]. exists kind. cbn [tk_name tk_val option_map].
      split; auto. f_equal. f_equal. cbn [Succ]. destruct (Nat.ltb_spec k size); [|lia].
      rewrite C44_substring by lia. destruct (Nat.leb_spec b (length input)); [|lia]. rewrite Nat.add_1_r. reflexivity.
    - eexists. split; [reflexivity|]. exists kind. auto.
  Qed.

  Lemma rows i oes : d_edge_iter (lx_dfa L) i = Ok oes -> i < length (d_first (lx_dfa L)) ->
    let es := match oes with Some es => es | None => [] end in
    length es <= size /\ forall e, In e es -> N.to_nat (fst (de_label e)) <= size /\ de_to e < length (d_first (lx_dfa L)).
  Proof.
    intros E Hi. destruct Hfit as (_ & F1 & F2).
    destruct (lexer_parts tokens L HL) as (ns & Nf & al & ds & _ & _ & _ & _ & _ & _ & _ & Hok & _).
    destruct Hok as (_ & _ & _ & (Hl & _) & Hrow). destruct (nth_error ds i) as [q|] eqn:Eq; [|apply nth_error_None in Eq; lia].
    destruct (Hrow i q Eq) as (es & Hr & Ei & Ef). rewrite Ei in E. injection E as <-.
    assert (Hes : match match es with [] => None | _ => Some es end with Some es => es | None => [] end = es) by (destruct es; auto).
    cbv zeta. rewrite Hes. split; [rewrite Ef; etransitivity; [apply filter_len|exact F1]|]. intros e He. split.
    - rewrite Ef in He. apply filter_In in He as [He _]. apply F2 in He. lia.
    - destruct (row_In _ _ _ _ _ _ _ Hr He) as (u & _ & _ & _ & H). rewrite Hl. apply nth_error_Some. congruence.
  Qed.

  Lemma accept_emitted q : match map_get q (lx_accepting L) with
    | Some (a :: _) => exists td, map_get a (lx_tokens L) = Some td /\ emitted L q = Some td
    | Some [] => False
    | None => emitted L q = None end.
  Proof.
    destruct (lexer_tokens tokens L HL) as (_ & _ & TA). destruct (lexer_accepting tokens L HL) as (_ & DA & _).
    unfold emitted. pose proof (DA q) as E. destruct (map_get q (lx_accepting L)) as [[|a l]|]; auto.
    - destruct (map_get q (dfa_to_nfa (lx_dfa L))) as [set|]; [|discriminate]. destruct (filter _ set); discriminate.
    - destruct (map_get q (dfa_to_nfa (lx_dfa L))) as [set|]; [|discriminate].
      assert (Ha : In a (filter (fun s => set_mem s (d_accepting (lx_dfa L))) set)).
      { destruct (filter _ set); [discriminate|]. injection E as <- <-. left. auto. }
      apply filter_In in Ha as [_ Ha]. apply set_mem_In in Ha. destruct (TA a Ha) as (td & Htd). exists td. auto.
  Qed.

  Lemma d2n_emitted q td : emitted L q = Some td -> exists set, geti (N.of_nat q) (lt_d2n T) = Some set.
  Proof.
    intros H. destruct (Tdef q td H) as (k & Hk & _). unfold token_def_of in Hk.
    destruct (geti (N.of_nat q) (lt_d2n T)); [eauto|discriminate].
  Qed.

  Lemma finish_sim s t : sim s t -> exists out us, lfinish (make_char L input) s = Ok out /\
    x_finish size T input t = LexToks (us ++ [EOF]) /\ Forall2 same_token out us.
  Proof.
    intros (_ & _ & Hb & _ & Hf & _ & Hl & Ht). unfold lfinish, x_finish.
    destruct (ls_last s) as [[k a]|], (x_last t) as [[k' q]|]; try contradiction Hl.
    - destruct Hl as (-> & Hk & td & Ha & Hq). destruct (make_sim (ls_begin s) k' a q td) as (u & E & Hu); auto; [lia|lia|].
      rewrite E. cbn [bind]. do 2 eexists. split; [reflexivity|]. rewrite reverse_rev, Hb. cbn [rev]. split; [reflexivity|].
      apply Forall2_app; auto.
    - do 2 eexists. split; [reflexivity|]. rewrite reverse_rev. cbn [rev]. split; [reflexivity|]. auto.
  Qed.

  Definition ended (s : lstate) (r : res (list token)) (o : lex_out) : Prop :=
    exists out, r = Ok out /\
    ((ls_forward s = length input /\ exists us, o = LexToks (us ++ [EOF]) /\ Forall2 same_token out us) \/
     (exists c, nth_error input (ls_forward s) = Some c /\ o = LexBad c (ls_forward s))).

  Lemma sim_step s t : sim s t ->
    match lstep L input (make_char L input) s, x_step size chars T input t with
    | inl s', inl t' => sim s' t'
    | inr r, inr o => ended s r o
    | _, _ => False
    end.
  Proof.
    intros HS. pose proof HS as (E1 & Hst & E2 & E3 & Hf & Hb & Hl & Ht). unfold lstep, x_step. rewrite E3.
    destruct (nth_error input (ls_forward s)) as [c|] eqn:Ec.
    2:{ destruct (finish_sim s t HS) as (out & us & F1 & F2 & F3). rewrite F1, F2. exists out. split; auto. left.
        apply nth_error_None in Ec. split; [lia|eauto]. }
    assert (Hc : In c input) by (eapply nth_error_In; eauto). rewrite (Hchars c Hc).
    assert (Hlt : ls_forward s < length input) by (apply nth_error_Some; congruence).
    assert (Hc' : N.to_nat c <= size).
    { apply Hsmall in Hc. lia. }
    rewrite E1. destruct (nth_error (lt_states T) (ls_state s)) as [st|] eqn:Es; [|apply nth_error_None in Es; lia].
    destruct (Tst _ _ Es) as (oes & Eo & Eto & Elab & _). cbv zeta in Eto, Elab. rewrite Eo, Eto, Elab.
    destruct (rows _ _ Eo Hst) as (R1 & R2).
    set (es := match oes with Some es => es | None => [] end) in *.
    replace (match oes with Some es0 => find (fun e => matches (de_label e) c) es0 | None => None end)
      with (find (fun e => matches (de_label e) c) es) by (unfold es; destruct oes; auto).
    rewrite next_state; [|auto|auto|intros e He; apply R2; auto].
    destruct (find (fun e => matches (de_label e) c) es) as [e|] eqn:Efi.
    - apply find_some in Efi as [He _]. destruct (R2 e He) as (_ & Hto).
      destruct (nth_error (lt_states T) (de_to e)) as [st'|] eqn:Es'; [|apply nth_error_None in Es'; lia].
      destruct (Tst _ _ Es') as (_ & _ & _ & _ & Hacc). cbn [Succ]. destruct (Nat.ltb_spec (ls_forward s) size); [|lia].
      pose proof (accept_emitted (de_to e)) as Hae. destruct (map_get (de_to e) (lx_accepting L)) as [[|a l]|]; [contradiction| |].
      + destruct Hae as (td & Ha & Hem). rewrite (proj2 Hacc) by congruence.
        unfold sim. cbn [x_state x_begin x_forward x_last x_tokens ls_state ls_begin ls_forward ls_last ls_tokens last_rel].
        repeat (split; [auto; lia|]). split; auto. split; auto. split; [lia|eauto].
      + destruct (tl_accepting st'); [exfalso; apply (proj1 Hacc eq_refl); auto|].
        unfold sim. cbn [x_state x_begin x_forward x_last x_tokens ls_state ls_begin ls_forward ls_last ls_tokens].
        repeat (split; [auto; lia|]). split; auto.
        unfold last_rel in *. destruct (ls_last s) as [[k a]|], (x_last t) as [[k' q]|]; auto.
        destruct Hl as (H1 & H2 & H3). split; auto. split; [lia|auto].
    - unfold last_rel in Hl. destruct (ls_last s) as [[k a]|] eqn:El, (x_last t) as [[k' q]|] eqn:Elt; try contradiction Hl.
      + destruct Hl as (<- & Hk & td & Ha & Hem). destruct (make_sim (ls_begin s) k a q td) as (u & E & Hu); auto; [lia|lia|].
        rewrite E. destruct (d2n_emitted q td Hem) as (set & Hset). rewrite Hset. cbn [Succ].
        destruct (Nat.ltb_spec k size); [|lia]. unfold sim.
        cbn [x_state x_begin x_forward x_last x_tokens ls_state ls_begin ls_forward ls_last ls_tokens last_rel].
        split; auto. split; [lia|]. split; [lia|]. split; [lia|]. split; [lia|]. split; [lia|]. split; auto.
        cbn [rev]. apply Forall2_app; auto. constructor; auto. rewrite E2. auto.
      + assert (Ew : IsWhitespace c = is_whitespace c) by (unfold IsWhitespace, is_whitespace; apply Bool.orb_comm).
        rewrite Ew, E2. destruct (is_whitespace c && (ls_forward s =? ls_begin s)) eqn:Ewh.
        * apply andb_true_iff in Ewh as [_ Ewh]. apply Nat.eqb_eq in Ewh. cbn [Succ].
          destruct (Nat.ltb_spec (ls_begin s) size); [|lia]. destruct (Nat.ltb_spec (ls_forward s) size); [|lia].
          unfold sim. cbn [x_state x_begin x_forward x_last x_tokens ls_state ls_begin ls_forward ls_last ls_tokens last_rel].
          repeat (split; [auto; lia|]). auto.
        * unfold lfinish. rewrite El. exists (ls_tokens s). split; auto. right. exists c. auto.
  Qed.
End Sim.
