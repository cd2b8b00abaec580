(** Lemmas about reading modules and declarations. *)
From Coq Require Import Ascii String.
From Verif Require Import Base Text TsText TsTextFacts TsScan TsModule.
Local Open Scope list_scope.

(** Tokens that change nothing: inside brackets ([inert]), and outside of them for the keywords
    that are looked for ([calm]). *)
Definition inert (ts : list tok) : Prop :=
  (forall kw n d b, declared kw n (S d) (ts ++ b) = declared kw n (S d) b) /\ (forall d b, upto d (ts ++ b) = ts ++ upto d b).
Definition kw (w : list N) : Prop := w = tx "type" \/ w = tx "module".
Definition calm (ts : list tok) : Prop := inert ts /\ forall w n b, kw w -> declared w n 0 (ts ++ b) = declared w n 0 b.

Definition flat_tok (t : tok) : bool := negb (opens t) && negb (closes t).
Lemma inert_nil : inert [].
Proof. split; reflexivity. Qed.
Lemma inert_app a b : inert a -> inert b -> inert (a ++ b).
Proof.
  intros [A1 A2] [B1 B2]. split; intros; rewrite <- app_assoc.
  - rewrite A1, B1. reflexivity.
  - rewrite A2, B2, app_assoc. reflexivity.
Qed.
Lemma inert_tok t : flat_tok t = true -> inert [t].
Proof.
  unfold flat_tok. intros H. apply andb_true_iff in H as [H1 H2]. apply negb_true_iff in H1, H2. split; intros; cbn [app].
  - cbn [declared]. unfold next_depth. rewrite H1, H2. reflexivity.
  - cbn [upto]. unfold next_depth. rewrite H1, H2. destruct d; reflexivity.
Qed.
Lemma inert_flat ts : forallb flat_tok ts = true -> inert ts.
Proof.
  induction ts as [|t ts IH]; intros H; [apply inert_nil|]. cbn [forallb] in H. apply andb_true_iff in H as [H1 H2].
  apply (inert_app [t]); auto. apply inert_tok; auto.
Qed.
Lemma inert_brackets o c ts : opens (TPun o) = true -> closes (TPun c) = true -> opens (TPun c) = false ->
  inert ts -> inert (TPun o :: ts ++ [TPun c]).
Proof.
  intros Ho Hc Hc' [A1 A2].
  assert (Hco : closes (TPun o) = false).
  { revert Ho. unfold opens, closes. destruct (N.eqb_spec o 40) as [->|_]; [reflexivity|].
    destruct (N.eqb_spec o 91) as [->|_]; [reflexivity|]. destruct (N.eqb_spec o 123) as [->|_]; [reflexivity|discriminate]. }
  split; intros; cbn [app]; rewrite <- app_assoc.
  - cbn [declared]. unfold next_depth at 1. rewrite Ho. cbn [Nat.eqb andb app]. rewrite A1. cbn [app declared].
    unfold next_depth. rewrite Hc', Hc. cbn [Nat.eqb andb app pred]. reflexivity.
  - cbn [upto]. unfold next_depth at 1 2. rewrite Ho, Hco. rewrite !A2. cbn [app upto]. unfold next_depth. rewrite Hc', Hc. cbn [pred].
    destruct d; rewrite <- app_assoc; reflexivity.
Qed.
Lemma inert_flat_map {A} (f : A -> list tok) l : (forall x, In x l -> inert (f x)) -> inert (flat_map f l).
Proof.
  induction l as [|x l IH]; intros H; [apply inert_nil|]. cbn [flat_map]. apply inert_app; [apply H; left; auto|].
  apply IH. intros y Hy. apply H. right. auto.
Qed.

Lemma calm_nil : calm [].
Proof. split; [apply inert_nil|reflexivity]. Qed.
Lemma calm_app a b : calm a -> calm b -> calm (a ++ b).
Proof.
  intros [A1 A2] [B1 B2]. split; [apply inert_app; auto|]. intros w n c Hw. rewrite <- app_assoc, A2, B2; auto.
Qed.
Definition quiet (t : tok) : bool := flat_tok t && negb (is_word (tx "type") t) && negb (is_word (tx "module") t).
Lemma calm_quiet ts : forallb quiet ts = true -> calm ts.
Proof.
  induction ts as [|t ts IH]; intros H; [apply calm_nil|]. cbn [forallb] in H. apply andb_true_iff in H as [H1 H2].
  apply (calm_app [t]); auto. unfold quiet in H1. apply andb_true_iff in H1 as [H1 H3]. apply andb_true_iff in H1 as [H1 H4].
  split; [apply inert_tok; auto|]. intros w n b Hw. cbn [app declared].
  assert (E : is_word w t = false) by (destruct Hw as [-> | ->]; [destruct (is_word (tx "type") t)|destruct (is_word (tx "module") t)]; auto; discriminate).
  rewrite E, andb_false_r. cbn [app]. unfold next_depth. unfold flat_tok in H1. apply andb_true_iff in H1 as [H5 H6].
  apply negb_true_iff in H5, H6. rewrite H5, H6. reflexivity.
Qed.
Lemma calm_brackets o c ts : opens (TPun o) = true -> closes (TPun c) = true -> opens (TPun c) = false ->
  inert ts -> calm (TPun o :: ts ++ [TPun c]).
Proof.
  intros Ho Hc Hc' Hi. split; [apply inert_brackets; auto|]. intros w n b Hw. destruct Hi as [A1 _].
  cbn [app]. rewrite <- app_assoc. cbn [declared]. unfold next_depth at 1. rewrite Ho. cbn [is_word Nat.eqb andb app]. rewrite A1. cbn [app declared].
  unfold next_depth. rewrite Hc', Hc. cbn [Nat.eqb andb app pred]. reflexivity.
Qed.
Lemma calm_obj ts : inert ts -> calm (TPun 123 :: ts ++ [TPun 125]).
Proof. apply calm_brackets; reflexivity. Qed.
Lemma calm_arr ts : inert ts -> calm (TPun 91 :: ts ++ [TPun 93]).
Proof. apply calm_brackets; reflexivity. Qed.
Lemma calm_flat_map {A} (f : A -> list tok) l : (forall x, In x l -> calm (f x)) -> calm (flat_map f l).
Proof.
  induction l as [|x l IH]; intros H; [apply calm_nil|]. cbn [flat_map]. apply calm_app; [apply H; left; auto|].
  apply IH. intros y Hy. apply H. right. auto.
Qed.
Lemma calm_inert ts : calm ts -> inert ts.
Proof. intros []. auto. Qed.

(** A declaration. *)
Definition typ (n : list N) (r : list tok) : list tok := TWord (tx "type") :: TWord n :: r.
Lemma declared_typ n0 r n b : calm r -> n0 <> tx "type" ->
  declared (tx "type") n 0 (typ n0 r ++ b) = (if eqb n0 n then [r ++ b] else []) ++ declared (tx "type") n 0 b.
Proof.
  intros [_ Hr] Hn. unfold typ. cbn [app declared is_word]. rewrite eqb_refl. cbn [Nat.eqb andb]. f_equal.
  unfold next_depth at 1. cbn [opens closes]. assert (E : eqb n0 (tx "type") = false) by (apply eqb_neq; auto). rewrite E. cbn [andb app].
  unfold next_depth. cbn [opens closes]. apply Hr. left. reflexivity.
Qed.
Lemma inert_typ n r : inert r -> inert (typ n r).
Proof. intros H. apply (inert_app [TWord (tx "type"); TWord n] r); auto. apply inert_flat. reflexivity. Qed.

(** Balanced tokens are inert. *)
Lemma level_declared ts : forall d d' kw n e b, level d ts = Some d' -> declared kw n (d + S e) (ts ++ b) = declared kw n (d' + S e) b.
Proof.
  induction ts as [|t ts IH]; intros d d' w n e b H; cbn [level] in H; [injection H as <-; reflexivity|].
  cbn [app declared]. replace (d + S e =? 0) with false by (symmetry; apply Nat.eqb_neq; lia). cbn [andb app]. unfold next_depth.
  destruct (opens t) eqn:Eo; [exact (IH (S d) d' w n e b H)|]. destruct (closes t); [|apply IH; auto].
  destruct d as [|d]; [discriminate|]. cbn [Nat.add pred]. apply IH. exact H.
Qed.
Lemma level_upto ts : forall d d' e b, level d ts = Some d' -> upto (d + e) (ts ++ b) = ts ++ upto (d' + e) b.
Proof.
  induction ts as [|t ts IH]; intros d d' e b H; cbn [level] in H; [injection H as <-; reflexivity|].
  cbn [app upto]. unfold next_depth. destruct (opens t) eqn:Eo.
  - assert (Ec : closes t = false).
    { destruct t as [| | |o|]; try discriminate. revert Eo. unfold opens, closes. destruct (N.eqb_spec o 40) as [->|_]; [reflexivity|].
      destruct (N.eqb_spec o 91) as [->|_]; [reflexivity|]. destruct (N.eqb_spec o 123) as [->|_]; [reflexivity|discriminate]. }
    rewrite Ec. pose proof (IH (S d) d' e b H) as G. cbn [Nat.add] in G. rewrite G. destruct (d + e); reflexivity.
  - destruct (closes t).
    + destruct d as [|d]; [discriminate|]. cbn [Nat.add pred]. rewrite (IH d d' e b H). reflexivity.
    + rewrite (IH d d' e b H). destruct (d + e); reflexivity.
Qed.
Lemma inert_balanced ts : level 0 ts = Some 0 -> inert ts.
Proof.
  intros H. split.
  - intros w n d b. exact (level_declared ts 0 0 w n d b H).
  - intros d b. exact (level_upto ts 0 0 d b H).
Qed.
Lemma outer_declared ts : forall d d' w n b, (forall t, In t (outer d ts) -> is_word w t = false) -> level d ts = Some d' ->
  declared w n d (ts ++ b) = declared w n d' b.
Proof.
  induction ts as [|t ts IH]; intros d d' w n b Ho H; cbn [level] in H; [injection H as <-; reflexivity|].
  cbn [app declared]. cbn [outer] in Ho.
  assert (E : (d =? 0) && is_word w t = false).
  { destruct (d =? 0) eqn:Ed; [|reflexivity]. apply Ho. left. reflexivity. }
  rewrite E. cbn [app]. assert (Ho' : forall t', In t' (outer (next_depth d t) ts) -> is_word w t' = false) by (intros t' Ht; apply Ho, in_or_app; auto).
  apply IH; auto. unfold next_depth. destruct (opens t); auto. destruct (closes t); auto. destruct d; [discriminate|exact H].
Qed.
Lemma calm_balanced ts : level 0 ts = Some 0 -> (forall t, In t (outer 0 ts) -> is_word (tx "type") t = false /\ is_word (tx "module") t = false) -> calm ts.
Proof.
  intros H Ho. split; [apply inert_balanced; auto|]. intros w n b Hw. apply outer_declared; auto. intros t Ht. apply Ho in Ht as [H1 H2].
  destruct Hw as [-> | ->]; auto.
Qed.

Lemma code_piece t ts : code_tokens t = Some ts -> piece t ts.
Proof.
  unfold code_tokens. destruct (scan SNone t) as [l s] eqn:E. intros H b tl' s' Hb Eb.
  rewrite (scan_app_eq _ _ _ _ _ E). destruct s; try discriminate; injection H as <-.
  - rewrite Eb. reflexivity.
  - assert (Hh : scan (SNum n) b = (TNum n :: tl', s')).
    { rewrite <- (app_nil_r b), <- (app_nil_r tl'). eapply scan_num_lit; eauto. }
    rewrite Hh, <- app_assoc. reflexivity.
  - assert (Hh : scan (SWord w) b = (TWord w :: tl', s')).
    { rewrite <- (app_nil_r b), <- (app_nil_r tl'). eapply scan_word_lit; eauto. }
    rewrite Hh, <- app_assoc. reflexivity.
Qed.
