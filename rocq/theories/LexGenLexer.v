(** The generated tables of a lexer built by [from_tokens]. *)
From Coq Require Import Ascii String.
From Verif Require Import Base Text Regex Nfa NfaProofs Dfa DfaProofs Lex LexNfa LexProofs TsText TsTextFacts TsScan TsTables TsTablesFacts LexGen LexGenProofs.
Local Open Scope list_scope.

(** ** The token map of a lexer *)

Lemma fold_insert_keys {A} (l : list nat) so (td : A) : forall m k,
  In k (Base.keys (fold_left (fun m a => map_insert (a + so) td m) l m)) -> In k (Base.keys m) \/ exists a, In a l /\ k = a + so.
Proof.
  induction l as [|a l IH]; simpl; intros m k H; auto. apply IH in H as [H|(b & Hb & ->)]; eauto.
  apply map_alter_keys in H as [->|H]; eauto.
Qed.
Lemma fold_insert_get {A} (l : list nat) so (td : A) : forall m k v, msorted m ->
  map_get k (fold_left (fun m a => map_insert (a + so) td m) l m) = Some v -> map_get k m = Some v \/ v = td.
Proof.
  induction l as [|a l IH]; simpl; intros m k v Hm H; auto. apply IH in H as [H|H]; auto; [|apply map_insert_sorted; auto].
  destruct (Nat.eq_dec k (a + so)) as [->|Hne].
  - rewrite map_get_insert_same in H by auto. injection H as <-. auto.
  - rewrite map_get_insert_other in H by auto. auto.
Qed.
Lemma fold_insert_sorted {A} (l : list nat) so (td : A) : forall m, msorted m -> msorted (fold_left (fun m a => map_insert (a + so) td m) l m).
Proof. induction l as [|a l IH]; simpl; intros m Hm; auto. apply IH. apply map_insert_sorted; auto. Qed.

Lemma tokens_loop_keys : forall l so eo tmap ns tm, from_tokens_loop so eo l tmap = (ns, tm) -> msorted tmap ->
  (forall td n, In (td, n) l -> accepting_states n = [1]) ->
  msorted tm /\
  (forall k, In k (Base.keys tm) -> In k (Base.keys tmap) \/ exists i o m, nth_error (blocks so (map snd l)) i = Some (o, m) /\ k = 1 + o) /\
  (forall k v, map_get k tm = Some v -> map_get k tmap = Some v \/ In v (map fst l)).
Proof.
  induction l as [|[td n] l IH]; intros so eo tmap ns tm E Hs Ha; cbn [from_tokens_loop] in E.
  - injection E as <- <-. auto.
  - destruct (from_tokens_loop _ _ l _) as [ns' tm'] eqn:E'. injection E as <- <-.
    apply IH in E' as (HS0 & K & V); [|apply fold_insert_sorted; auto|intros td' n' H; apply (Ha td' n'); right; auto].
    split; auto. split.
    + intros k Hk. apply K in Hk as [Hk|(i & o & m & Hi & ->)].
      * apply fold_insert_keys in Hk as [Hk|(a & Hin & ->)]; auto. right. exists 0, so, n. split; auto.
        rewrite (Ha td n (or_introl eq_refl)) in Hin. destruct Hin as [<-|[]]. reflexivity.
      * right. exists (S i), o, m. split; auto. simpl in Hi. rewrite map_length in Hi. exact Hi.
    + intros k v Hv. apply V in Hv as [Hv|Hv]; [|right; right; auto].
      apply fold_insert_get in Hv as [Hv| ->]; auto. right. left. reflexivity.
Qed.

Lemma lexer_tokens tokens L : from_tokens tokens = Ok L ->
  msorted (lx_tokens L) /\
  (forall k td, map_get k (lx_tokens L) = Some td -> In k (d_accepting (lx_dfa L)) /\ In td (map fst tokens)) /\
  (forall k, In k (d_accepting (lx_dfa L)) -> exists td, map_get k (lx_tokens L) = Some td).
Proof.
  intros HL. pose proof HL as HL'.
  destruct (lexer_parts tokens L HL) as (ns & Nf & al & ds & HF & EN & Hwf & Hst & Hnoin & Efn & Eal & Hok & Eacc & Htok & Hac & _).
  pose proof Hok as (_ & _ & Ea & _). rewrite Ea.
  assert (HK : msorted (lx_tokens L) /\ (forall k, In k (Base.keys (lx_tokens L)) -> exists i o m, nth_error (blocks 1 ns) i = Some (o, m) /\ k = 1 + o) /\
    (forall k v, map_get k (lx_tokens L) = Some v -> In v (map fst tokens))).
  { unfold from_tokens in HL'. apply bind_ok in HL' as ((Nf' & tmap) & E1 & E2). apply bind_ok in E2 as (d & _ & E3). injection E3 as <-. simpl.
    unfold lex_nfa in E1. apply bind_ok in E1 as (wn & Ew & E). apply mapM_Forall2 in Ew.
    assert (Hfr : Forall2 (fun t x => fst t = fst x /\ from_regex (snd t) = Ok (snd x)) tokens wn).
    { eapply Forall2_impl; [|exact Ew]. intros t x H. simpl in H.
      destruct (from_regex (snd t)); simpl in H; try discriminate. injection H as <-. auto. }
    assert (En : ns = map snd wn).
    { clear - HF Hfr. revert wn Hfr. induction HF as [|t n ts ns Ht _ IH]; intros wn Hfr; inversion Hfr as [|? x ? wn' [_ Hx] Hr]; subst; auto. simpl.
      f_equal; [congruence|]. apply IH. auto. }
    assert (Ef : map fst wn = map fst tokens).
    { clear - Hfr. induction Hfr as [|t x ts xs [H _] _ IH]; simpl; congruence. }
    apply bind_ok in E as (tmpl & _ & E). destruct (from_tokens_loop 1 (length wn) wn []) as [ns' tm] eqn:El. injection E as <- <-.
    apply tokens_loop_keys in El as (HS0 & K & V).
    - split; auto. split.
      + intros k Hk. apply K in Hk as [[]|Hk]. rewrite En. exact Hk.
      + intros k v Hv. apply V in Hv as [Hv|Hv]; [discriminate|]. rewrite <- Ef. auto.
    - exact I.
    - intros td n Hin. apply In_nth_error in Hin as [i Hi]. eapply Forall2_nth_r in Hfr as ([td' h'] & H3 & H4 & H5); eauto. simpl in *.
      apply from_regex_inv in H5. destruct H5. destruct rn_accs as [k Hk]. eapply accepting_states_one; eauto. }
  destruct HK as (HS & HK & HV). split; auto. split.
  - intros k td Hk. split; [|eauto]. apply Hac. apply HK. apply map_get_Some_key. eauto.
  - intros k Hk. apply Hac in Hk as (i & o & n & Hi & ->). pose proof Hi as Hi'. apply blocks_nth in Hi' as (Hn & _).
    destruct (Forall2_nth_r _ _ _ _ _ HF Hn) as ([td h] & Ht & _). exists td. eapply Htok; eauto.
Qed.

(** ** The context *)

Lemma fold_entries {A} (l : list (nat * A)) : forall m, msorted m ->
  (forall k v v', In (k, v) l -> In (k, v') l -> v = v') ->
  let r := fold_left (fun m e => map_insert (fst e) (snd e) m) l m in
  msorted r /\ forall k v, map_get k r = Some v <-> In (k, v) l \/ (~ In k (map fst l) /\ map_get k m = Some v).
Proof.
  induction l as [|[k0 v0] l IH]; intros m Hm Hf; simpl.
  - split; auto. intros k v. tauto.
  - destruct (IH (map_insert k0 v0 m)) as (HS0 & G); [apply map_insert_sorted; auto|intros k v v' H H'; apply (Hf k); right; auto|].
    split; auto. intros k v. rewrite G. clear G. destruct (Nat.eq_dec k k0) as [->|Hne].
    + rewrite map_get_insert_same by auto. split.
      * intros [H|[_ H]]; auto. injection H as ->. auto.
      * intros [[H|H]|[H _]]; [|auto|tauto]. injection H as ->.
        destruct (in_dec Nat.eq_dec k0 (map fst l)) as [Hin|Hin]; [|auto].
        apply in_map_iff in Hin as ([k1 v1] & E & Hin). simpl in E. subst k1.
        rewrite (Hf k0 v v1); simpl; auto.
    + rewrite map_get_insert_other by auto. split.
      * intros [H|[H1 H2]]; auto. right. split; auto. intros [H|H]; congruence.
      * intros [[H|H]|[H1 H2]]; [congruence|auto|]. right. split; auto.
Qed.

Lemma mapM_nth {A B} (f : A -> res B) l r i b : mapM f l = Ok r -> nth_error r i = Some b -> exists a, nth_error l i = Some a /\ f a = Ok b.
Proof. intros E Hi. apply mapM_Forall2 in E. eapply Forall2_nth_r in E as (a & H1 & H2); eauto. Qed.

Lemma nth_error_seq0 n i : nth_error (seq 0 n) i = if i <? n then Some i else None.
Proof.
  destruct (Nat.ltb_spec i n) as [H|H].
  - rewrite nth_error_nth' with (d := 0) by (rewrite seq_length; auto). rewrite seq_nth; auto.
  - apply nth_error_None. rewrite seq_length. auto.
Qed.

(** The sets of NFA states that can end a token, as the lexer sees them. *)
Lemma lexer_accepting tokens L : from_tokens tokens = Ok L ->
  msorted (dfa_to_nfa (lx_dfa L)) /\
  (forall i, map_get i (lx_accepting L) =
     match map_get i (dfa_to_nfa (lx_dfa L)) with
     | None => None
     | Some q => match filter (fun s => set_mem s (d_accepting (lx_dfa L))) q with [] => None | l => Some l end
     end) /\
  (forall i, map_get i (dfa_to_nfa (lx_dfa L)) <> None -> i < length (d_first (lx_dfa L))) /\
  (forall i, i < length (d_first (lx_dfa L)) -> exists oes, d_edge_iter (lx_dfa L) i = Ok oes).
Proof.
  intros HL. destruct (lexer_parts tokens L HL) as (ns & Nf & al & ds & _ & _ & _ & _ & _ & _ & _ & Hok & Eacc & _).
  pose proof Hok as (_ & Hmap & _ & (Hlen & _) & Hrow).
  assert (Hm : msorted (dfa_to_nfa (lx_dfa L))) by (eapply map_ok_sorted; eauto).
  split; auto. split; [|split].
  - intros i. rewrite Eacc. apply d_accepting_states_get; auto.
  - intros i Hi. rewrite (map_ok_get ds _ i Hmap) in Hi. rewrite Hlen. destruct i; [congruence|]. apply nth_error_Some in Hi. auto.
  - intros i Hi. rewrite Hlen in Hi. destruct (nth_error ds i) as [q|] eqn:Eq; [|apply nth_error_None in Eq; lia].
    destruct (Hrow i q Eq) as (es & _ & E & _). eauto.
Qed.

Lemma lexer_ctx tokens L : from_tokens tokens = Ok L ->
  exists c, lex_ctx_new L = Ok c /\
    msorted (lc_tokens c) /\ lc_dfa_to_nfa c = dfa_to_nfa (lx_dfa L) /\
    (forall k v, map_get k (lc_tokens c) = Some v <->
       (exists td, map_get k (lx_tokens L) = Some td /\ v = (td_name td, td_with_val td)) /\
       exists i l, map_get i (lx_accepting L) = Some l /\ In k l) /\
    length (lc_states c) = length (d_first (lx_dfa L)) /\
    (forall i s, nth_error (lc_states c) i = Some s -> from_lex_state (lx_dfa L) i = Ok s).
Proof.
  intros HL. destruct (lexer_tokens tokens L HL) as (TS & TK & TA). destruct (lexer_accepting tokens L HL) as (DS & DA & DL & DE).
  unfold lex_ctx_new. set (ents := flat_map _ (lx_tokens L)).
  assert (He : forall k v, In (k, v) ents <-> (exists td, map_get k (lx_tokens L) = Some td /\ v = (td_name td, td_with_val td)) /\
       exists i l, map_get i (lx_accepting L) = Some l /\ In k l).
  { intros k v. unfold ents. rewrite in_flat_map. split.
    - intros ([k1 td] & Hk & Hin). apply in_flat_map in Hin as (i & Hi & Hin). cbn [fst snd] in Hin.
      destruct (map_get i (lx_accepting L)) as [set|] eqn:E; [|destruct Hin].
      destruct (existsb (Nat.eqb k1) set) eqn:Ex; [|destruct Hin]. destruct Hin as [Hin|[]]. injection Hin as <- <-. split.
      + exists td. split; auto. apply map_get_iff; auto.
      + exists i, set. split; auto. apply existsb_exists in Ex as (x & Hx & E2). apply Nat.eqb_eq in E2 as <-. auto.
    - intros ((td & Hk & ->) & (i & l & Hi & Hin)). exists (k, td). split; [apply map_get_iff; auto|]. apply in_flat_map.
      exists i. split.
      + apply in_seq. split; [lia|]. apply DL. rewrite DA in Hi. destruct (map_get i (dfa_to_nfa (lx_dfa L))); congruence.
      + rewrite Hi. cbn [fst snd]. assert (existsb (Nat.eqb k) l = true) as ->; [|left; auto].
        apply existsb_exists. exists k. split; auto. apply Nat.eqb_refl. }
  destruct (fold_entries ents [] I) as (FS & FG).
  { intros k v v' H H'. apply He in H as ((td & H & ->) & _). apply He in H' as ((td' & H' & ->) & _). congruence. }
  destruct (mapM_ok (from_lex_state (lx_dfa L)) (seq 0 (length (d_first (lx_dfa L))))) as (sts & Es).
  { intros i Hi. apply in_seq in Hi. destruct (DE i) as (oes & E); [lia|]. unfold from_lex_state. rewrite E. simpl. eauto. }
  rewrite Es. simpl. eexists. split; [reflexivity|]. cbn [lc_tokens lc_states lc_dfa_to_nfa].
  split; auto. split; auto. split.
  - intros k v. rewrite FG, He. split; [|auto]. intros [H|[_ H]]; [auto|discriminate].
  - split; [apply mapM_Forall2, Forall2_len in Es; rewrite seq_length in Es; auto|].
    intros i s Hi. destruct (mapM_nth _ _ _ _ _ Es Hi) as (a & Ha & E). rewrite nth_error_seq0 in Ha.
    destruct (i <? length (d_first (lx_dfa L))); [|discriminate]. injection Ha as <-. auto.
Qed.

(** Lookups in the tables of the text. *)
Lemma geti_map {A B} (f : A -> B) (l : list (nat * A)) k : geti (N.of_nat k) (map (fun e => (N.of_nat (fst e), f (snd e))) l) = option_map f (map_get k l).
Proof.
  unfold geti. induction l as [|[k0 v0] l IH]; simpl; auto. destruct (N.eqb_spec (N.of_nat k0) (N.of_nat k)) as [E|E].
  - assert (k0 = k) as <- by lia. rewrite (eqb_refl k0). reflexivity.
  - assert (eqb k k0 = false) as ->. { apply eqb_neq. intros ->. auto. } apply IH.
Qed.

Lemma first_def_spec (tks : list (nat * (list N * bool))) (f : list N * bool -> list N * bool) (P : nat -> bool) q :
  (forall k, In k q -> (map_get k tks <> None <-> P k = true)) ->
  first_def (map (fun e => (N.of_nat (fst e), f (snd e))) tks) (map N.of_nat q) =
  match filter P q with [] => None | a :: _ => option_map f (map_get a tks) end.
Proof.
  induction q as [|k q IH]; intros H; auto. cbn [map first_def filter]. rewrite geti_map.
  destruct (map_get k tks) as [v|] eqn:E.
  - rewrite (proj1 (H k (or_introl eq_refl))) by congruence. simpl. rewrite E. auto.
  - simpl. destruct (P k) eqn:Ep; [exfalso; apply (proj2 (H k (or_introl eq_refl)) Ep); auto|].
    apply IH. intros k' Hk'. apply H. right. auto.
Qed.
