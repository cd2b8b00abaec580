(** Proofs about Nfa.v: the Thompson construction recognises the language of the regex. *)
From Verif Require Import Base Regex Nfa.

(** ** Paths in an edge list *)

Inductive path (E : list edge) : nat -> list N -> nat -> Prop :=
| path_nil s : path E s [] s
| path_eps s t u w : In (Edge s None t) E -> path E t w u -> path E s w u
| path_chr s t u m c w :
    In (Edge s (Some m) t) E -> matches m c = true -> path E t w u -> path E s (c :: w) u.

Lemma path_app E s t u w1 w2 : path E s w1 t -> path E t w2 u -> path E s (w1 ++ w2) u.
Proof. induction 1; simpl; intros; eauto using path. Qed.

Lemma path_incl E E' s w t : incl E E' -> path E s w t -> path E' s w t.
Proof. intros Hi; induction 1; eauto using path. Qed.

(** A path that starts in a set closed under the edges only uses edges leaving that set. *)
Lemma path_restrict (C : nat -> Prop) E E' s w t :
  (forall e, In e E -> C (e_from e) -> In e E' /\ C (e_to e)) ->
  C s -> path E s w t -> path E' s w t.
Proof.
  intros HC Hs Hp. revert Hs. induction Hp; intros Hs; [constructor|..].
  - destruct (HC _ H Hs) as [Hin Ht]. eapply path_eps; eauto.
  - destruct (HC _ H Hs) as [Hin Ht]. eapply path_chr; eauto.
Qed.

(** A state without outgoing edges. *)
Lemma path_stuck E s w t : (forall e, In e E -> e_from e <> s) -> path E s w t -> w = [] /\ t = s.
Proof.
  intros Hn Hp; inversion Hp; subst; auto.
  - exfalso; apply (Hn _ H); reflexivity.
  - exfalso; apply (Hn _ H); reflexivity.
Qed.

Lemma path_inv E s w u : path E s w u ->
  (w = [] /\ u = s) \/
  (exists t, In (Edge s None t) E /\ path E t w u) \/
  (exists m t c w', w = c :: w' /\ In (Edge s (Some m) t) E /\ matches m c = true /\ path E t w' u).
Proof. intros Hp; inversion Hp; subst; eauto 10. Qed.

(** ** Fragments *)

(** All edges of [E] leave states in [[lo,hi)] and stay there or go to [acc]. *)
Definition edges_in (E : list edge) (lo hi acc : nat) : Prop :=
  forall e, In e E -> lo <= e_from e < hi /\ (lo <= e_to e < hi \/ e_to e = acc).

Definition frag (E : list edge) (lo hi acc s : nat) (P : list N -> Prop) : Prop :=
  edges_in E lo hi acc /\ (lo <= s < hi \/ s = acc) /\ forall w, path E s w acc <-> P w.

Definition mfrag E lo hi acc (ss : list nat) (Ps : list (list N -> Prop)) : Prop :=
  edges_in E lo hi acc /\
  Forall2 (fun s (P : list N -> Prop) =>
             (lo <= s < hi \/ s = acc) /\ forall w, path E s w acc <-> P w) ss Ps.

Lemma frag_ext E lo hi acc s (P Q : list N -> Prop) :
  (forall w, P w <-> Q w) -> frag E lo hi acc s P -> frag E lo hi acc s Q.
Proof.
  intros HPQ (H1 & H2 & H3). split; [auto|split; [auto|]]. intros w. rewrite H3; auto.
Qed.

Lemma frag_id lo acc : frag [] lo lo acc acc (fun w => w = []).
Proof.
  split; [intros e []|]. split; [auto|]. intros w; split.
  - intros Hp. apply path_stuck in Hp; [tauto|intros e []].
  - intros ->; constructor.
Qed.

(** Splitting a path that crosses from [E1] (ending in [mid_acc]) to [E2]. *)
Lemma seq_split E1 E2 lo mid hi acc s2 x w :
  acc < lo -> lo <= mid <= hi ->
  edges_in E2 lo mid acc -> (lo <= s2 < mid \/ s2 = acc) ->
  edges_in E1 mid hi s2 ->
  (mid <= x < hi \/ x = s2) ->
  path (E2 ++ E1) x w acc ->
  exists w1 w2, w = w1 ++ w2 /\ path E1 x w1 s2 /\ path E2 s2 w2 acc.
Proof.
  intros Hacc Hle H2 Hs2 H1 Hx Hp. remember acc as t eqn:Et in Hp. revert Hx.
  assert (Hrest : forall w, path (E2 ++ E1) s2 w acc -> path E2 s2 w acc).
  { intros w0. apply (path_restrict (fun y => lo <= y < mid \/ y = acc)); auto.
    intros e He Hf. apply in_app_or in He as [He|He]; [split; auto|].
    - destruct (H2 _ He) as [_ ?]; auto.
    - destruct (H1 _ He) as [? _]. lia. }
  induction Hp as [s|s t' u w Hin Hp IH|s t' u m c w Hin Hm Hp IH]; subst; intros Hx.
  - exists [], []. destruct Hx as [Hx|Hx]; [lia|]. subst. repeat split; constructor.
  - destruct Hx as [Hx|Hx].
    + apply in_app_or in Hin as [Hin|Hin]; [destruct (H2 _ Hin) as [Hf _]; simpl in Hf; lia|].
      destruct (H1 _ Hin) as [_ Ht]; simpl in Ht.
      destruct (IH eq_refl Ht) as (w1 & w2 & -> & Hp1 & Hp2).
      exists w1, w2; split; auto. split; auto. eapply path_eps; eauto.
    + subst. exists [], w. repeat split; [constructor|]. apply Hrest. eapply path_eps; eauto.
  - destruct Hx as [Hx|Hx].
    + apply in_app_or in Hin as [Hin|Hin]; [destruct (H2 _ Hin) as [Hf _]; simpl in Hf; lia|].
      destruct (H1 _ Hin) as [_ Ht]; simpl in Ht.
      destruct (IH eq_refl Ht) as (w1 & w2 & -> & Hp1 & Hp2).
      exists (c :: w1), w2; split; auto. split; auto. eapply path_chr; eauto.
    + subst. exists [], (c :: w). repeat split; [constructor|]. apply Hrest. eapply path_chr; eauto.
Qed.

Lemma edges_in_app E1 E2 lo mid hi acc s2 :
  lo <= mid <= hi ->
  edges_in E2 lo mid acc -> (lo <= s2 < mid \/ s2 = acc) -> edges_in E1 mid hi s2 ->
  edges_in (E2 ++ E1) lo hi acc.
Proof.
  intros Hle H2 Hs H1 e He. apply in_app_or in He as [He|He].
  - destruct (H2 _ He) as [? [?|?]]; split; auto; lia.
  - destruct (H1 _ He) as [? [?|?]]; split; try lia.
Qed.

Lemma frag_seq E1 E2 lo mid hi acc s2 s1 P1 P2 :
  acc < lo -> lo <= mid <= hi ->
  frag E2 lo mid acc s2 P2 -> frag E1 mid hi s2 s1 P1 ->
  frag (E2 ++ E1) lo hi acc s1 (fun w => exists w1 w2, w = w1 ++ w2 /\ P1 w1 /\ P2 w2).
Proof.
  intros Hacc Hle (H2 & Hs2 & HP2) (H1 & Hs1 & HP1). split; [|split].
  - eapply edges_in_app; eauto.
  - destruct Hs1 as [?|?], Hs2 as [?|?]; try (left; lia); try (right; lia).
  - intros w; split.
    + intros Hp. destruct (seq_split _ _ _ _ _ _ _ _ _ Hacc Hle H2 Hs2 H1 Hs1 Hp)
        as (w1 & w2 & -> & Ha & Hb).
      exists w1, w2. rewrite <- HP1, <- HP2; auto.
    + intros (w1 & w2 & -> & Ha & Hb). apply HP1 in Ha; apply HP2 in Hb.
      eapply path_app; eapply path_incl; try eassumption; auto using incl_appl, incl_appr, incl_refl.
Qed.

Lemma mfrag_nil lo acc : mfrag [] lo lo acc [] [].
Proof. split; [intros e []|constructor]. Qed.

Lemma mfrag_cons E1 E2 lo mid hi acc s P ss Ps :
  acc < lo -> lo <= mid <= hi ->
  frag E1 lo mid acc s P -> mfrag E2 mid hi acc ss Ps ->
  mfrag (E1 ++ E2) lo hi acc (s :: ss) (P :: Ps).
Proof.
  intros Hacc Hle (H1 & Hs & HP) (H2 & HF).
  assert (R1 : forall x w, lo <= x < mid \/ x = acc -> path (E1 ++ E2) x w acc -> path E1 x w acc).
  { intros x w Hx. apply (path_restrict (fun y => lo <= y < mid \/ y = acc)); auto.
    intros e He Hf. apply in_app_or in He as [He|He].
    - split; auto. destruct (H1 _ He); auto.
    - destruct (H2 _ He); lia. }
  assert (R2 : forall x w, mid <= x < hi \/ x = acc -> path (E1 ++ E2) x w acc -> path E2 x w acc).
  { intros x w Hx. apply (path_restrict (fun y => mid <= y < hi \/ y = acc)); auto.
    intros e He Hf. apply in_app_or in He as [He|He].
    - destruct (H1 _ He); lia.
    - split; auto. destruct (H2 _ He); auto. }
  split; [|constructor].
  - intros e He. apply in_app_or in He as [He|He].
    + destruct (H1 _ He) as [? [?|?]]; split; auto; lia.
    + destruct (H2 _ He) as [? [?|?]]; split; auto; lia.
  - split; [lia|]. intros w; split; intros Hw.
    + apply HP, R1; auto.
    + apply HP in Hw. eapply path_incl; [|exact Hw]. apply incl_appl, incl_refl.
  - eapply Forall2_impl; [|exact HF]. simpl. intros x Q [Hx HQ]. split; [lia|].
    intros w; split; intros Hw.
    + apply HQ, R2; auto.
    + apply HQ in Hw. eapply path_incl; [|exact Hw]. apply incl_appr, incl_refl.
Qed.

Lemma frag_alt E f hi acc ss Ps :
  acc < f -> f + 2 <= hi -> mfrag E (f + 2) hi f ss Ps ->
  frag (Edge f None acc :: E ++ map (fun s => Edge (f + 1) None s) ss) f hi acc (f + 1)
       (fun w => Exists (fun P : list N -> Prop => P w) Ps).
Proof.
  intros Hacc Hhi (H1 & HF).
  set (Ei := map (fun s => Edge (f + 1) None s) ss).
  assert (HEi : forall e, In e Ei -> exists s, In s ss /\ e = Edge (f + 1) None s).
  { intros e He. apply in_map_iff in He as (s & <- & Hs); eauto. }
  assert (Hss : forall s, In s ss -> f + 2 <= s < hi \/ s = f).
  { intros s Hs. clear - HF Hs. induction HF as [|x Q ss Ps [Hx _] _ IH]; [destruct Hs|].
    destruct Hs as [<-|Hs]; auto. }
  assert (Hf : edges_in [Edge f None acc] f (f + 2) acc).
  { intros e [<-|[]]; simpl; lia. }
  (* after the first step only f and the alternatives are visited *)
  assert (Hdown : forall s w, In s ss -> path (Edge f None acc :: E ++ Ei) s w acc ->
                              path ([Edge f None acc] ++ E) s w acc).
  { intros s w Hs. apply (path_restrict (fun y => f + 2 <= y < hi \/ y = f \/ y = acc)).
    - intros e [<-|He] Hc; [simpl; auto|]. apply in_app_or in He as [He|He].
      + split; [right; exact He|]. destruct (H1 _ He) as [_ [?|?]]; auto.
      + apply HEi in He as (s' & _ & ->). simpl in Hc. lia.
    - destruct (Hss s Hs); auto. }
  split; [|split; [left; lia|]].
  - intros e [<-|He]; [simpl; lia|]. apply in_app_or in He as [He|He].
    + destruct (H1 _ He) as [? [?|?]]; lia.
    + apply HEi in He as (s & Hs & ->). simpl. apply Hss in Hs. lia.
  - intros w; split.
    + intros Hp. apply path_inv in Hp as [(_ & E0)|[(t & Hin & Hp)|(m & t & c & w' & _ & Hin & _)]].
      * lia.
      * destruct Hin as [E0|Hin]; [injection E0; lia|]. apply in_app_or in Hin as [Hin|Hin].
        { destruct (H1 _ Hin) as [? _]; simpl in *; lia. }
        apply HEi in Hin as (s & Hs & E0). injection E0 as ->.
        apply Hdown in Hp; auto.
        eapply (seq_split E [Edge f None acc] f (f + 2) hi acc f) in Hp; auto; try lia.
        destruct Hp as (w1 & w2 & -> & Hp1 & Hp2).
        assert (w2 = []) as ->.
        { apply path_inv in Hp2 as [(-> & _)|[(t & [E0|[]] & Hp)|(m & t & c & w' & _ & [E0|[]] & _)]]; auto.
          - injection E0 as <-. apply path_stuck in Hp; [tauto|].
            intros e [<-|[]]; simpl; lia.
          - discriminate. }
        rewrite app_nil_r. clear - HF Hs Hp1.
        induction HF as [|x Q ss Ps [_ HQ] _ IH]; [destruct Hs|].
        destruct Hs as [<-|Hs]; [left; apply HQ; exact Hp1|right; auto].
      * destruct Hin as [E0|Hin]; [discriminate|]. apply in_app_or in Hin as [Hin|Hin].
        { destruct (H1 _ Hin) as [? _]; simpl in *; lia. }
        apply HEi in Hin as (s & Hs & E0). discriminate.
    + intros Hex. assert (exists s, In s ss /\ path E s w f) as (s & Hs & Hp).
      { clear - HF Hex. induction HF as [|x Q ss Ps [_ HQ] _ IH]; [inversion Hex|].
        inversion Hex as [? ? Hw|? ? Hw]; subst.
        - exists x; split; [left; reflexivity|]. apply HQ, Hw.
        - destruct (IH Hw) as (s & Hs & Hp). exists s; split; [right; exact Hs|exact Hp]. }
      apply path_eps with s.
      * right. apply in_or_app; right. apply in_map_iff; eauto.
      * rewrite <- (app_nil_r w). apply path_app with f.
        { eapply path_incl; [|exact Hp]. intros e He; right; apply in_or_app; auto. }
        eapply path_eps; [left; reflexivity|constructor].
Qed.

(** Language of the repetitions, over an arbitrary base language. *)
Inductive star (P : list N -> Prop) : list N -> Prop :=
| star_nil : star P []
| star_cons w1 w2 : P w1 -> star P w2 -> star P (w1 ++ w2).

Definition rep_lang (k : rep_kind) (P : list N -> Prop) (w : list N) : Prop :=
  (rep_skips k = true /\ w = []) \/
  exists w1 w2, w = w1 ++ w2 /\ P w1 /\ if rep_loops k then star P w2 else w2 = [].

Definition rep_edges (k : rep_kind) (o i acc s_in : nat) : list edge :=
  [Edge o None acc] ++ (if rep_loops k then [Edge o None s_in] else []) ++
  [Edge i None s_in] ++ (if rep_skips k then [Edge i None acc] else []).

Lemma frag_rep E k o i acc s_in P :
  acc < o -> o + 1 <= i ->
  frag E (o + 1) i o s_in P ->
  frag (E ++ rep_edges k o i acc s_in) o (i + 1) acc i (rep_lang k P).
Proof.
  intros Hacc Hi (H1 & Hs & HP).
  set (X := rep_edges k o i acc s_in).
  assert (HX : forall e, In e X -> e_label e = None /\
     ((e_from e = o /\ (e_to e = acc \/ rep_loops k = true /\ e_to e = s_in)) \/
      (e_from e = i /\ (e_to e = s_in \/ rep_skips k = true /\ e_to e = acc)))).
  { intros e He. unfold X, rep_edges in He. simpl in He. destruct He as [<-|He]; [simpl; auto 10|].
    apply in_app_or in He as [He|[<-|He]].
    - destruct (rep_loops k); [destruct He as [<-|[]]; simpl; auto 10|destruct He].
    - simpl; auto 10.
    - destruct (rep_skips k); [destruct He as [<-|[]]; simpl; auto 10|destruct He]. }
  assert (Xoa : In (Edge o None acc) X) by (left; reflexivity).
  assert (Xis : In (Edge i None s_in) X).
  { unfold X, rep_edges. apply in_or_app; right; apply in_or_app; right. left; reflexivity. }
  assert (Xos : rep_loops k = true -> In (Edge o None s_in) X).
  { intros E0. unfold X, rep_edges. rewrite E0. right; left; reflexivity. }
  assert (Xia : rep_skips k = true -> In (Edge i None acc) X).
  { intros E0. unfold X, rep_edges. rewrite E0. apply in_or_app; right; apply in_or_app; right.
    right; left; reflexivity. }
  assert (Hacc0 : forall w t, path (E ++ X) acc w t -> w = [] /\ t = acc).
  { intros w t. apply path_stuck. intros e He. apply in_app_or in He as [He|He].
    - destruct (H1 _ He); lia.
    - apply HX in He as [_ [[-> _]|[-> _]]]; lia. }
  assert (Hmain : forall x w t, path (E ++ X) x w t -> t = acc ->
             (o + 1 <= x < i \/ x = o) ->
             exists w1 w2, w = w1 ++ w2 /\ path E x w1 o /\
                           if rep_loops k then star P w2 else w2 = []).
  { intros x w t Hp. induction Hp as [s|s t u w Hin Hp IH|s t u m c w Hin Hm Hp IH]; intros -> Hx.
    - lia.
    - apply in_app_or in Hin as [Hin|Hin].
      + destruct (H1 _ Hin) as [_ Ht]; simpl in Ht.
        destruct (IH eq_refl Ht) as (w1 & w2 & -> & Hp1 & Hw2).
        exists w1, w2; split; auto. split; auto. eapply path_eps; eauto.
      + apply HX in Hin as (_ & [[Hf Ht]|[Hf Ht]]); simpl in *; [|lia]. subst s.
        destruct Ht as [->|[Hl ->]].
        * apply Hacc0 in Hp as [-> _]. exists [], []. repeat split; [constructor|].
          destruct (rep_loops k); [constructor|reflexivity].
        * destruct (IH eq_refl) as (w1 & w2 & -> & Hp1 & Hw2); [lia|].
          exists [], (w1 ++ w2). repeat split; [constructor|]. rewrite Hl in Hw2 |- *.
          constructor; auto. apply HP; exact Hp1.
    - apply in_app_or in Hin as [Hin|Hin].
      + destruct (H1 _ Hin) as [_ Ht]; simpl in Ht.
        destruct (IH eq_refl Ht) as (w1 & w2 & -> & Hp1 & Hw2).
        exists (c :: w1), w2; split; auto. split; auto. eapply path_chr; eauto.
      + apply HX in Hin as (E0 & _). discriminate. }
  assert (Hback : forall w, (if rep_loops k then star P w else w = []) -> path (E ++ X) o w acc).
  { assert (Ho : path (E ++ X) o [] acc).
    { eapply path_eps; [apply in_or_app; right; exact Xoa|constructor]. }
    intros w Hw. destruct (rep_loops k); [|subst; exact Ho].
    induction Hw as [|w1 w2 Hw1 Hw2 IH]; [exact Ho|].
    eapply path_eps; [apply in_or_app; right; apply Xos; reflexivity|].
    apply path_app with o; auto. apply HP in Hw1. eapply path_incl; [|exact Hw1].
    apply incl_appl, incl_refl. }
  split; [|split; [left; lia|]].
  - intros e He. apply in_app_or in He as [He|He].
    + destruct (H1 _ He) as [? [?|?]]; lia.
    + apply HX in He as (_ & [[? [?|[_ ?]]]|[? [?|[_ ?]]]]); lia.
  - intros w; split.
    + intros Hp. apply path_inv in Hp as [(_ & E0)|[(t & Hin & Hp)|(m & t & c & w' & _ & Hin & _)]].
      * lia.
      * apply in_app_or in Hin as [Hin|Hin].
        { destruct (H1 _ Hin); simpl in *; lia. }
        apply HX in Hin as (_ & [[Hf _]|[_ [Ht|[Hk Ht]]]]); simpl in *; try lia; subst t.
        { apply Hmain in Hp as (w1 & w2 & -> & Hp1 & Hw2); [|reflexivity|lia].
          right. exists w1, w2. split; auto. split; auto. apply HP; exact Hp1. }
        { apply Hacc0 in Hp as [-> _]. left; auto. }
      * apply in_app_or in Hin as [Hin|Hin].
        { destruct (H1 _ Hin); simpl in *; lia. }
        apply HX in Hin as (E0 & _). discriminate.
    + intros [[Hk ->]|(w1 & w2 & -> & Hw1 & Hw2)].
      * eapply path_eps; [apply in_or_app; right; apply Xia; exact Hk|constructor].
      * eapply path_eps; [apply in_or_app; right; exact Xis|].
        apply path_app with o; auto. apply HP in Hw1. eapply path_incl; [|exact Hw1].
        apply incl_appl, incl_refl.
Qed.

(** ** Well-formed NFAs: edges in range, and the edges of each state are contiguous *)

Definition contig (n : nfa) (i : nat) (st : state) : Prop :=
  match first_edge st with
  | None => forall e, In e (edges n) -> e_from e <> i
  | Some k => exists pre mid post,
      edges n = pre ++ mid ++ post /\ length pre = k /\ mid <> [] /\
      (forall e, In e mid -> e_from e = i) /\ (forall e, In e (pre ++ post) -> e_from e <> i)
  end.

Definition nst (n : nfa) : nat := length (states n).
Definition accs (n : nfa) : list bool := map is_accept (states n).

Definition wf (n : nfa) : Prop :=
  (forall e, In e (edges n) -> e_from e < nst n /\ e_to e < nst n) /\
  (forall i st, nth_error (states n) i = Some st -> contig n i st).

Lemma nst_accs n : nst n = length (accs n).
Proof. unfold nst, accs; rewrite map_length; reflexivity. Qed.

Lemma take_while_all {A} (f : A -> bool) l1 l2 :
  (forall x, In x l1 -> f x = true) -> (forall x, In x l2 -> f x = false) ->
  take_while f (l1 ++ l2) = l1.
Proof.
  intros H1 H2. induction l1 as [|x l1 IH]; simpl.
  - destruct l2 as [|y l2]; simpl; auto. rewrite H2; auto. left; reflexivity.
  - rewrite H1 by (left; reflexivity). rewrite IH; auto. intros; apply H1; right; auto.
Qed.

Lemma filter_none {A} (f : A -> bool) l : (forall x, In x l -> f x = false) -> filter f l = [].
Proof.
  induction l as [|x l IH]; simpl; auto. intros Hl. rewrite Hl by auto. auto.
Qed.

Lemma filter_all {A} (f : A -> bool) l : (forall x, In x l -> f x = true) -> filter f l = l.
Proof.
  induction l as [|x l IH]; simpl; auto. intros Hl. rewrite Hl by auto. f_equal; auto.
Qed.

(** The iterator returns exactly the edges leaving the state, in order. *)
Lemma edge_iter_wf n i : wf n -> i < nst n ->
  edge_iter n i = Ok (filter (fun e => e_from e =? i) (edges n)).
Proof.
  intros [_ Hc] Hi. unfold edge_iter.
  destruct (nth_error (states n) i) as [st|] eqn:E.
  - specialize (Hc i st E). unfold contig in Hc. f_equal. destruct (first_edge st) as [k|].
    + destruct Hc as (pre & mid & post & Ee & Hk & _ & Hmid & Hout). rewrite Ee.
      rewrite skipn_app, skipn_all2 by lia. rewrite Hk, Nat.sub_diag. simpl.
      rewrite take_while_all.
      * rewrite !filter_app.
        rewrite (filter_none _ pre), (filter_none _ post), (filter_all _ mid);
          [simpl; rewrite app_nil_r; reflexivity|..].
        -- intros x Hx. apply Nat.eqb_eq; auto.
        -- intros x Hx. apply Nat.eqb_neq, Hout, in_or_app; auto.
        -- intros x Hx. apply Nat.eqb_neq, Hout, in_or_app; auto.
      * intros x Hx. apply Nat.eqb_eq; auto.
      * intros x Hx. apply Nat.eqb_neq, Hout, in_or_app; auto.
    + symmetry. apply filter_none. intros x Hx. apply Nat.eqb_neq; auto.
  - exfalso. apply nth_error_None in E. unfold nst in Hi. lia.
Qed.

(** A state may receive a new edge if it has none yet or owns the last one. *)
Definition can_push (n : nfa) (s : nat) : Prop :=
  (forall e, In e (edges n) -> e_from e <> s) \/
  (exists l e, edges n = l ++ [e] /\ e_from e = s).

Lemma push_edge_ok n from lab to :
  wf n -> from < nst n -> to < nst n -> can_push n from ->
  exists n', push_edge n from lab to = Ok n' /\ wf n' /\
             edges n' = edges n ++ [Edge from lab to] /\ accs n' = accs n.
Proof.
  intros [He Hc] Hf Ht Hp. unfold push_edge.
  destruct (Nat.ltb_spec from (length (states n))) as [Hlt|Hge]; [|unfold nst in *; lia].
  eexists; split; [reflexivity|]. simpl.
  set (upd := fun st : state => match first_edge st with
                 | None => State (Some (length (edges n))) (is_accept st) | Some _ => st end).
  assert (Hacc : accs (NFA (edges n ++ [Edge from lab to]) (update_nth from upd (states n))) = accs n).
  { unfold accs; simpl. clear. generalize (states n). revert from.
    intros k l; revert k; induction l as [|x l IH]; intros [|k]; simpl; auto.
    - f_equal. unfold upd. destruct (first_edge x); reflexivity.
    - f_equal; auto. }
  split; [|split; [reflexivity|exact Hacc]].
  split.
  - intros e Hin. simpl in Hin. unfold nst; simpl. rewrite update_nth_length.
    apply in_app_or in Hin as [Hin|[<-|[]]]; [apply He; exact Hin|simpl; auto].
  - intros i st Hst. simpl in Hst. destruct (Nat.eq_dec from i) as [->|Hne].
    + destruct (nth_error (states n) i) as [st0|] eqn:E0;
        [|apply nth_error_None in E0; unfold nst in *; lia].
      rewrite (nth_error_update_same _ _ _ _ E0) in Hst. injection Hst as <-.
      specialize (Hc i st0 E0). unfold contig in *. unfold upd.
      destruct (first_edge st0) as [k|] eqn:Ef; simpl; [rewrite Ef|].
      * destruct Hc as (pre & mid & post & Ee & Hk & Hne & Hmid & Hout).
        assert (post = []) as ->.
        { destruct Hp as [Hp|(l & e & El & Hfe)].
          - exfalso. destruct mid as [|e mid]; [congruence|].
            apply (Hp e); [rewrite Ee; apply in_or_app; right; left; reflexivity|].
            apply Hmid; left; reflexivity.
          - destruct post as [|e' post'] using rev_ind; auto. exfalso.
            rewrite El in Ee. rewrite !app_assoc in Ee. apply app_inj_tail in Ee as [_ ->].
            apply (Hout e'); auto. apply in_or_app; right; apply in_or_app; right; left; reflexivity. }
        exists pre, (mid ++ [Edge i lab to]), []. rewrite Ee, !app_nil_r, !app_assoc.
        repeat split; auto.
        -- intros E1; apply app_eq_nil in E1 as [_ E1]; discriminate.
        -- intros e Hin. apply in_app_or in Hin as [Hin|[<-|[]]]; auto.
        -- intros e Hin. apply Hout. rewrite app_nil_r; exact Hin.
      * exists (edges n), [Edge i lab to], []. repeat split; auto; try discriminate.
        -- intros e [<-|[]]; reflexivity.
        -- rewrite app_nil_r; auto.
    + rewrite nth_error_update_other in Hst by auto. specialize (Hc i st Hst).
      unfold contig in *. simpl. destruct (first_edge st) as [k|].
      * destruct Hc as (pre & mid & post & Ee & Hk & Hm & Hmid & Hout).
        exists pre, mid, (post ++ [Edge from lab to]). rewrite Ee, <- !app_assoc.
        repeat split; auto. intros e Hin.
        rewrite app_assoc in Hin. apply in_app_or in Hin as [Hin|[<-|[]]]; [auto|simpl; auto].
      * intros e Hin. apply in_app_or in Hin as [Hin|[<-|[]]]; [auto|simpl; auto].
Qed.

Lemma push_state_wf n : wf n -> wf (push_state n).
Proof.
  intros [He Hc]. split; simpl.
  - intros e Hin. unfold nst; simpl. rewrite app_length. apply He in Hin. unfold nst in Hin. simpl. lia.
  - intros i st Hst. destruct (Nat.lt_ge_cases i (length (states n))).
    + rewrite nth_error_app1 in Hst by auto. apply (Hc i st Hst).
    + rewrite nth_error_app2 in Hst by auto. destruct (i - length (states n)) eqn:E; simpl in Hst.
      * injection Hst as <-. unfold contig; simpl. intros e Hin. apply He in Hin. unfold nst in Hin. lia.
      * destruct n0; discriminate.
Qed.

Lemma accs_push_state n : accs (push_state n) = accs n ++ [false].
Proof. unfold accs, push_state; simpl. rewrite map_app; reflexivity. Qed.

Lemma nst_push_state n : nst (push_state n) = nst n + 1.
Proof. unfold nst, push_state; simpl. rewrite app_length; reflexivity. Qed.

(** A fresh state owns no edge. *)
Lemma fresh_can_push n s : wf n -> nst n <= s -> can_push n s.
Proof. intros [He _] Hs. left. intros e Hin. apply He in Hin. lia. Qed.

(** [n'] extends [n] with edges [new] and non-accepting states only. *)
Definition extends (n n' : nfa) (new : list edge) : Prop :=
  wf n' /\ edges n' = edges n ++ new /\ exists k, accs n' = accs n ++ repeat false k.

Lemma extends_nst n n' new : extends n n' new -> nst n <= nst n'.
Proof. intros (_ & _ & k & E). rewrite !nst_accs, E, app_length. lia. Qed.

Lemma extends_refl n : wf n -> extends n n [].
Proof. intros H. split; [auto|]. rewrite app_nil_r. split; auto. exists 0. rewrite app_nil_r; auto. Qed.

Lemma extends_trans n1 n2 n3 e1 e2 :
  extends n1 n2 e1 -> extends n2 n3 e2 -> extends n1 n3 (e1 ++ e2).
Proof.
  intros (_ & E1 & k1 & A1) (W & E2 & k2 & A2). split; [auto|]. split.
  - rewrite E2, E1, app_assoc; reflexivity.
  - exists (k1 + k2). rewrite A2, A1, repeat_app, app_assoc; reflexivity.
Qed.

Lemma extends_push_state n : wf n -> extends n (push_state n) [].
Proof.
  intros H. split; [apply push_state_wf; auto|]. split; [rewrite app_nil_r; reflexivity|].
  exists 1. apply accs_push_state.
Qed.

Lemma extends_push_edge n from lab to :
  wf n -> from < nst n -> to < nst n -> can_push n from ->
  exists n', push_edge n from lab to = Ok n' /\ extends n n' [Edge from lab to] /\ nst n' = nst n.
Proof.
  intros H1 H2 H3 H4. destruct (push_edge_ok n from lab to H1 H2 H3 H4) as (n' & E & W & Ee & Ea).
  exists n'. split; auto. split.
  - split; auto. split; auto. exists 0. rewrite app_nil_r; auto.
  - rewrite !nst_accs, Ea; reflexivity.
Qed.

Lemma can_push_extends_last n n' l e : extends n n' (l ++ [e]) -> can_push n' (e_from e).
Proof.
  intros (_ & E & _). right. exists (edges n ++ l), e. split; auto. rewrite E, app_assoc; reflexivity.
Qed.

(** ** Compilation *)

Lemma compile_match_ok n m acc : wf n -> acc < nst n ->
  exists n' new, compile_match n m acc = Ok (n', Some (nst n)) /\ extends n n' new /\
    nst n' = nst n + 1 /\
    frag new (nst n) (nst n') acc (nst n) (fun w => exists c, w = [c] /\ matches m c = true).
Proof.
  intros Hw Ha. unfold compile_match.
  destruct (extends_push_edge (push_state n) (nst n) (Some m) acc) as (n' & E & X & Hn).
  { apply push_state_wf; auto. } { rewrite nst_push_state; lia. } { rewrite nst_push_state; lia. }
  { left. intros e Hin. simpl in Hin. apply Hw in Hin. lia. }
  unfold nst in E at 1. rewrite E. simpl. rewrite nst_push_state in Hn.
  exists n', [Edge (nst n) (Some m) acc]. split; [reflexivity|]. split; [|split; [exact Hn|]].
  - apply (extends_trans _ _ _ [] _ (extends_push_state n Hw) X).
  - split; [|split; [lia|]].
    + intros e [<-|[]]; simpl; lia.
    + intros w; split.
      * intros Hp. apply path_inv in Hp as [(_ & E0)|[(t & [E0|[]] & _)|(m' & t & c & w' & -> & [E0|[]] & Hm & Hp)]].
        -- lia.
        -- discriminate.
        -- injection E0 as <- <-. apply path_stuck in Hp; [|intros e [<-|[]]; simpl; lia].
           destruct Hp as [-> _]. eauto.
      * intros (c & -> & Hm). eapply path_chr; [left; reflexivity|exact Hm|constructor].
Qed.

Lemma compile_ranges_ok rs : forall n acc, wf n -> acc < nst n ->
  exists n' new ss, compile_ranges n rs acc = Ok (n', map Some ss) /\ extends n n' new /\
    mfrag new (nst n) (nst n') acc ss
      (map (fun m w => exists c, w = [c] /\ matches m c = true) rs).
Proof.
  induction rs as [|r rs IH]; intros n acc Hw Ha; simpl.
  - exists n, [], []. split; [reflexivity|]. split; [apply extends_refl; auto|apply mfrag_nil].
  - destruct (compile_match_ok n r acc Hw Ha) as (n1 & e1 & E1 & X1 & Hn1 & F1).
    rewrite E1; simpl. destruct (IH n1 acc) as (n2 & e2 & ss & E2 & X2 & F2);
      [apply X1|lia|]. rewrite E2; simpl.
    exists n2, (e1 ++ e2), (nst n :: ss). split; [reflexivity|]. split; [eapply extends_trans; eauto|].
    pose proof (extends_nst _ _ _ X1). pose proof (extends_nst _ _ _ X2).
    eapply mfrag_cons; eauto.
Qed.

Lemma push_targets_ok ss : forall n i, wf n -> i < nst n -> Forall (fun s => s < nst n) ss ->
  can_push n i ->
  exists n', push_targets n i (map Some ss) = Ok n' /\
    extends n n' (map (fun s => Edge i None s) ss) /\ nst n' = nst n.
Proof.
  induction ss as [|s ss IH]; intros n i Hw Hi Hs Hp; simpl.
  - exists n. split; auto. split; auto. apply extends_refl; auto.
  - inversion Hs as [|? ? Hs1 Hs2]; subst.
    destruct (extends_push_edge n i None s Hw Hi Hs1 Hp) as (n1 & E1 & X1 & Hn1).
    rewrite E1; simpl. destruct (IH n1 i) as (n2 & E2 & X2 & Hn2).
    + apply X1. + lia. + rewrite Hn1; auto.
    + apply (can_push_extends_last n n1 [] _ X1).
    + exists n2. split; auto. split; [|lia].
      apply (extends_trans _ _ _ [Edge i None s] _ X1 X2).
Qed.

(** The inner loops of [compile], named. *)
Definition alts (F : hir -> nfa -> res (nfa * option nat)) :=
  fix go (l : list hir) (m : nfa) : res (nfa * list (option nat)) :=
    match l with
    | [] => Ok (m, [])
    | e :: l' =>
        let* (m1, t) := F e m in
        let* (m2, ts) := go l' m1 in
        Ok (m2, t :: ts)
    end.

Definition seqs (F : hir -> nfa -> nat -> res (nfa * option nat)) (n : nfa) (accept : nat) :=
  fix go (l : list hir) : res (nfa * nat) :=
    match l with
    | [] => Ok (n, accept)
    | e :: l' =>
        let* (n1, a1) := go l' in
        let* (n2, r) := F e n1 a1 in
        let* a2 := unwrap r in
        Ok (n2, a2)
    end.

Lemma compile_alt_eq hs n acc :
  compile (HAlt hs) n acc =
  let* n1 := push_edge (push_state n) (nst n) None acc in
  let* (n2, targets) := alts (fun e m => compile e m (nst n)) hs (push_state n1) in
  let* n3 := push_targets n2 (nst n1) targets in
  Ok (n3, Some (nst n1)).
Proof. reflexivity. Qed.

Lemma compile_concat_eq hs n acc :
  compile (HConcat hs) n acc =
  let* (n', a) := seqs compile n acc hs in Ok (n', Some a).
Proof. reflexivity. Qed.

(** What makes a tree uncompilable. *)
Definition bad (h : hir) : Prop := exists x, subterm x h /\ (unsupported x \/ x = HEmpty).

Definition good_panic (h : hir) (p : panic) : Prop :=
  match p with
  | PTodo => exists x, subterm x h /\ unsupported x
  | PUnwrapNone => subterm HEmpty h /\ ~ grouped_empty h
  | _ => False
  end.

Definition compile_post (h : hir) (n : nfa) (acc : nat) (r : res (nfa * option nat)) : Prop :=
  match r with
  | Ok (n', None) => n' = n /\ grouped_empty h
  | Ok (n', Some s) => ~ bad h /\ exists new, extends n n' new /\
      frag new (nst n) (nst n') acc s (Lang h)
  | Panic p => good_panic h p
  | Diverge => False
  end.

Lemma grouped_empty_sub h : grouped_empty h -> subterm HEmpty h.
Proof. induction 1; eauto using subterm. Qed.

Lemma grouped_empty_lang h w : grouped_empty h -> (Lang h w <-> w = []).
Proof.
  induction 1; split; intros Hw.
  - inversion Hw; auto.
  - subst; constructor.
  - inversion Hw; subst. apply IHgrouped_empty; auto.
  - constructor. apply IHgrouped_empty; auto.
Qed.

Lemma star_Lang h w : star (Lang h) w <-> Lang (HRep ZeroOrMore h) w.
Proof.
  split.
  - induction 1; eauto using Lang.
  - intros Hw. remember (HRep ZeroOrMore h) as r eqn:E. induction Hw; inversion E; subst.
    + constructor.
    + constructor; auto.
Qed.

Lemma rep_lang_Lang k h w : (forall lo hi, k <> RepRange lo hi) ->
  (rep_lang k (Lang h) w <-> Lang (HRep k h) w).
Proof.
  intros Hk. unfold rep_lang. destruct k; simpl; try (exfalso; eapply Hk; reflexivity).
  - split.
    + intros [[_ ->]|(w1 & w2 & -> & H1 & ->)]; [constructor|]. rewrite app_nil_r; constructor; auto.
    + intros Hw; inversion Hw; subst; auto. right. exists w, []. rewrite app_nil_r; auto.
  - split.
    + intros [[_ ->]|(w1 & w2 & -> & H1 & H2)]; [constructor|]. apply star_Lang in H2.
      constructor; auto.
    + intros Hw; inversion Hw; subst; auto. right. exists w1, w2. repeat split; auto.
      apply star_Lang; auto.
  - split.
    + intros [[H0 _]|(w1 & w2 & -> & H1 & H2)]; [discriminate|]. apply star_Lang in H2.
      constructor; auto.
    + intros Hw; inversion Hw; subst; auto. right. exists w1, w2. repeat split; auto.
      apply star_Lang; auto.
Qed.

Lemma sub_inv_rep x k h : subterm x (HRep k h) -> x = HRep k h \/ subterm x h.
Proof. intros H; inversion H; auto. Qed.
Lemma sub_inv_group x h : subterm x (HGroup h) -> x = HGroup h \/ subterm x h.
Proof. intros H; inversion H; auto. Qed.

Lemma concat_post hs : forall n acc, wf n -> acc < nst n ->
  Forall (fun h => forall n acc, wf n -> acc < nst n -> compile_post h n acc (compile h n acc)) hs ->
  match seqs compile n acc hs with
  | Ok (n', a) => (forall h, In h hs -> ~ bad h) /\ exists new, extends n n' new /\
       frag new (nst n) (nst n') acc a (Lang (HConcat hs))
  | Panic p => exists h, In h hs /\
       match p with PTodo => exists x, subterm x h /\ unsupported x
                  | PUnwrapNone => subterm HEmpty h | _ => False end
  | Diverge => False
  end.
Proof.
  intros n acc Hw Ha HF. induction HF as [|h hs Hh HF IH]; simpl.
  - split; [intros h []|]. exists []. split; [apply extends_refl; auto|].
    eapply frag_ext; [|apply frag_id]. intros w; simpl. split; intros Hx.
    + subst; constructor.
    + inversion Hx; auto.
  - destruct (seqs compile n acc hs) as [[n1 a1]|p|]; simpl; [|destruct IH as (h' & ? & ?); exists h'; auto|auto].
    destruct IH as (Hg & e1 & X1 & F1).
    assert (Ha1 : a1 < nst n1).
    { pose proof (extends_nst _ _ _ X1). destruct F1 as (_ & [?|?] & _); lia. }
    specialize (Hh n1 a1 (proj1 X1) Ha1). unfold compile_post in Hh.
    destruct (compile h n1 a1) as [[n2 [a2|]]|p|]; simpl.
    + destruct Hh as (Hb & e2 & X2 & F2). split.
      * intros h' [<-|Hin]; auto.
      * exists (e1 ++ e2). split; [eapply extends_trans; eauto|].
        pose proof (extends_nst _ _ _ X1). pose proof (extends_nst _ _ _ X2).
        eapply frag_ext; [|eapply (frag_seq e2 e1 (nst n) (nst n1)); eauto].
        intros w; simpl; split.
        -- intros (w1 & w2 & -> & H1 & H2); constructor; auto.
        -- intros Hx; inversion Hx; subst; eauto 6.
    + destruct Hh as [_ Hge]. exists h; split; auto. apply grouped_empty_sub; auto.
    + exists h; split; auto. destruct p; simpl in Hh; try tauto.
    + exact Hh.
Qed.

Lemma alts_post hs : forall f n, wf n -> f < nst n ->
  Forall (fun h => forall n acc, wf n -> acc < nst n -> compile_post h n acc (compile h n acc)) hs ->
  match alts (fun e m => compile e m f) hs n with
  | Ok (n', ts) =>
      (exists ss new, ts = map Some ss /\ (forall h, In h hs -> ~ bad h) /\ extends n n' new /\
         mfrag new (nst n) (nst n') f ss (map Lang hs))
      \/ (In None ts /\ exists h, In h hs /\ grouped_empty h)
  | Panic p => exists h, In h hs /\
       match p with PTodo => exists x, subterm x h /\ unsupported x
                  | PUnwrapNone => subterm HEmpty h | _ => False end
  | Diverge => False
  end.
Proof.
  intros f n Hw Hf HF. revert n Hw Hf. induction HF as [|h hs Hh HF IH]; intros n Hw Hf; simpl.
  - left. exists [], []. split; [reflexivity|]. split; [intros h []|]. split; [apply extends_refl; auto|apply mfrag_nil].
  - specialize (Hh n f Hw Hf). unfold compile_post in Hh.
    destruct (compile h n f) as [[n1 [a1|]]|p|]; simpl.
    + destruct Hh as (Hb & e1 & X1 & F1).
      assert (Hf1 : f < nst n1) by (pose proof (extends_nst _ _ _ X1); lia).
      specialize (IH n1 (proj1 X1) Hf1).
      destruct (alts _ hs n1) as [[n2 ts]|p|]; simpl.
      * destruct IH as [(ss & e2 & -> & Hg & X2 & F2)|(HN & h' & Hin & Hge)].
        -- left. exists (a1 :: ss), (e1 ++ e2). split; [reflexivity|]. split.
           { intros h' [<-|Hin]; auto. }
           split; [eapply extends_trans; eauto|].
           pose proof (extends_nst _ _ _ X1). pose proof (extends_nst _ _ _ X2).
           eapply mfrag_cons; eauto.
        -- right. split; [right; auto|]. exists h'; auto.
      * destruct IH as (h' & ? & ?); exists h'; auto.
      * exact IH.
    + destruct Hh as [-> Hge]. specialize (IH n Hw Hf).
      destruct (alts _ hs n) as [[n2 ts]|p|]; simpl.
      * right. split; [left; reflexivity|]. exists h; auto.
      * destruct IH as (h' & ? & ?); exists h'; auto.
      * exact IH.
    + exists h; split; auto. destruct p; simpl in Hh; try tauto.
    + exact Hh.
Qed.

Lemma push_targets_none ts : forall n i, wf n -> i < nst n ->
  In None ts ->
  (forall t, In (Some t) ts -> t < nst n) -> can_push n i ->
  push_targets n i ts = Panic PUnwrapNone.
Proof.
  induction ts as [|[t|] ts IH]; intros n i Hw Hi Hin Ht Hp; simpl; auto.
  - destruct Hin.
  - destruct (extends_push_edge n i None t Hw Hi) as (n1 & E1 & X1 & Hn1); auto.
    { apply Ht; left; reflexivity. }
    rewrite E1; simpl. apply IH.
    + apply X1. + lia. + destruct Hin as [Hin|Hin]; [discriminate|auto].
    + intros t' Ht'. rewrite Hn1. apply Ht; right; auto.
    + apply (can_push_extends_last n n1 [] _ X1).
Qed.

(** All targets of the alternatives are states of the result. *)
Lemma alts_extends hs : forall f n, wf n -> f < nst n ->
  Forall (fun h => forall n acc, wf n -> acc < nst n -> compile_post h n acc (compile h n acc)) hs ->
  forall n' ts, alts (fun e m => compile e m f) hs n = Ok (n', ts) ->
  (exists new, extends n n' new /\ edges_in new (nst n) (nst n') f) /\
  (forall t, In (Some t) ts -> t < nst n').
Proof.
  intros f n Hw Hf HF. revert n Hw Hf. induction HF as [|h hs Hh HF IH]; intros n Hw Hf n' ts; simpl.
  - intros E; injection E as <- <-. split; [|intros t []].
    exists []; split; [apply extends_refl; auto|intros e []].
  - specialize (Hh n f Hw Hf). unfold compile_post in Hh.
    destruct (compile h n f) as [[n1 r1]|p|] eqn:Ec; simpl; try discriminate.
    destruct (alts _ hs n1) as [[n2 ts2]|p|] eqn:E2; simpl; try discriminate.
    intros E; injection E as <- <-. destruct r1 as [a1|].
    + destruct Hh as (_ & e1 & X1 & F1). pose proof (extends_nst _ _ _ X1).
      assert (Hf1 : f < nst n1) by lia.
      destruct (IH n1 (proj1 X1) Hf1 _ _ E2) as ((e2 & X2 & F2) & Ht).
      pose proof (extends_nst _ _ _ X2). split.
      * exists (e1 ++ e2). split; [eapply extends_trans; eauto|].
        intros e He. apply in_app_or in He as [He|He].
        -- destruct F1 as (F1 & _). destruct (F1 _ He) as [? [?|?]]; lia.
        -- destruct (F2 _ He) as [? [?|?]]; lia.
      * intros t [Et|Hin]; auto. injection Et as ->. destruct F1 as (_ & [?|?] & _); lia.
    + destruct Hh as [-> _]. destruct (IH n Hw Hf _ _ E2) as (X2 & Ht). split; auto.
      intros t [Et|Hin]; auto. discriminate.
Qed.

Lemma Exists_map_Lang hs w : Exists (fun P : list N -> Prop => P w) (map Lang hs) <-> Lang (HAlt hs) w.
Proof.
  rewrite Exists_exists. split.
  - intros (P & HP & Hw). apply in_map_iff in HP as (h & <- & Hh). econstructor; eauto.
  - intros Hw; inversion Hw; subst. exists (Lang h). split; auto. apply in_map; auto.
Qed.

Lemma bad_concat hs : (forall h, In h hs -> ~ bad h) -> ~ bad (HConcat hs).
Proof.
  intros Hg (x & Hx & Hu). inversion Hx; subst.
  - simpl in Hu. destruct Hu as [[]|Hu]; discriminate.
  - eapply Hg; eauto. eexists; eauto.
Qed.
Lemma bad_alt hs : (forall h, In h hs -> ~ bad h) -> ~ bad (HAlt hs).
Proof.
  intros Hg (x & Hx & Hu). inversion Hx; subst.
  - simpl in Hu. destruct Hu as [[]|Hu]; discriminate.
  - eapply Hg; eauto. eexists; eauto.
Qed.

Lemma compile_correct h : forall n acc, wf n -> acc < nst n ->
  compile_post h n acc (compile h n acc).
Proof.
  induction h as [| c | rs | | | k h IH | h IH | hs IH | hs IH] using hir_ind'; intros n acc Hw Ha.
  - simpl. split; auto. constructor.
  - simpl. destruct (compile_match_ok n (c, (c + 1)%N) acc Hw Ha) as (n' & new & E & X & Hn & F).
    rewrite E. simpl. split.
    + intros (x & Hx & Hu). inversion Hx; subst. simpl in Hu. destruct Hu as [[]|Hu]; discriminate.
    + exists new. split; auto. eapply frag_ext; [|exact F]. intros w; simpl. split.
      * intros (c' & -> & Hm). unfold matches in Hm; simpl in Hm.
        apply andb_true_iff in Hm as [H1 H2]. apply N.leb_le in H1. apply N.ltb_lt in H2.
        replace c' with c by lia. constructor.
      * intros Hx; inversion Hx; subst. exists c. split; auto. unfold matches; simpl.
        apply andb_true_iff; split; [apply N.leb_le|apply N.ltb_lt]; lia.
  - simpl.
    destruct (extends_push_edge (push_state n) (nst n) None acc) as (n1 & E1 & X1 & Hn1).
    { apply push_state_wf; auto. } { rewrite nst_push_state; lia. } { rewrite nst_push_state; lia. }
    { left. intros e Hin. simpl in Hin. apply Hw in Hin. lia. }
    unfold nst in E1 at 1. rewrite E1; simpl. rewrite nst_push_state in Hn1.
    fold (nst n) (nst n1).
    assert (Hw1 : wf n1) by apply X1.
    destruct (compile_ranges_ok (map (fun r => (fst r, (snd r + 1)%N)) rs) (push_state n1) (nst n))
      as (n2 & e2 & ss & E2 & X2 & F2).
    { apply push_state_wf; auto. } { rewrite nst_push_state; lia. }
    rewrite E2; simpl. rewrite nst_push_state in F2.
    pose proof (extends_nst _ _ _ X2) as Hle. rewrite nst_push_state in Hle.
    assert (Hss : Forall (fun s => s < nst n2) ss).
    { destruct F2 as [_ F2]. clear - F2 Hle Hn1. induction F2 as [|s P ss Ps [Hs _] _ IH]; constructor; auto. lia. }
    destruct (push_targets_ok ss n2 (nst n1)) as (n3 & E3 & X3 & Hn3).
    { apply X2. } { lia. } { auto. }
    { left. intros e He. destruct X2 as (_ & Ee & _). rewrite Ee in He. simpl in He.
      apply in_app_or in He as [He|He].
      - apply Hw1 in He. lia.
      - destruct F2 as [F2 _]. apply F2 in He. lia. }
    rewrite E3; simpl. split.
    + intros (x & Hx & Hu). inversion Hx; subst. simpl in Hu. destruct Hu as [[]|Hu]; discriminate.
    + exists ([Edge (nst n) None acc] ++ e2 ++ map (fun s => Edge (nst n1) None s) ss). split.
      * apply (extends_trans n (push_state n) n3 []); [apply extends_push_state; auto|].
        apply (extends_trans _ n1 _ [Edge (nst n) None acc] _ X1).
        apply (extends_trans n1 (push_state n1) n3 []); [apply extends_push_state; auto|].
        eapply extends_trans; eauto.
      * rewrite Hn1 in *. rewrite Hn3.
        replace (nst n + 1 + 1) with (nst n + 2) in F2 by lia.
        eapply frag_ext; [|eapply frag_alt; eauto; lia].
        intros w; simpl. rewrite Exists_exists. split.
        -- intros (P & HP & Hw'). apply in_map_iff in HP as (m & <- & Hm).
           apply in_map_iff in Hm as ([lo hi] & <- & Hr). destruct Hw' as (c & -> & Hm).
           unfold matches in Hm; simpl in Hm.
           apply andb_true_iff in Hm as [H1 H2]. apply N.leb_le in H1. apply N.ltb_lt in H2.
           econstructor; eauto. lia.
        -- intros Hx; inversion Hx; subst.
           exists (fun w => exists c, w = [c] /\ matches (lo, (hi + 1)%N) c = true). split.
           ++ apply (in_map (fun m w => exists c, w = [c] /\ matches m c = true) _ (lo, (hi+1)%N)).
              apply in_map_iff. exists (lo, hi); auto.
           ++ exists c; split; auto. unfold matches; simpl.
              apply andb_true_iff; split; [apply N.leb_le|apply N.ltb_lt]; lia.
  - simpl. exists HAnchor. split; [constructor|exact I].
  - simpl. exists HWordBoundary. split; [constructor|exact I].
  - destruct (match k with RepRange _ _ => true | _ => false end) eqn:Ek.
    { destruct k; try discriminate. simpl. exists (HRep (RepRange lo hi) h). split; [constructor|exact I]. }
    assert (Hk : forall lo hi, k <> RepRange lo hi) by (intros lo hi ->; discriminate).
    assert (Eq : compile (HRep k h) n acc =
      let* (n1, r) := compile h (push_state n) (nst n) in
      let* s_in := unwrap r in
      let* n2 := push_edge n1 (nst n) None acc in
      let* n3 := push_edge_if (rep_loops k) n2 (nst n) s_in in
      let* n4 := push_edge (push_state n3) (nst n3) None s_in in
      let* n5 := push_edge_if (rep_skips k) n4 (nst n3) acc in
      Ok (n5, Some (nst n3))) by (destruct k; try discriminate; reflexivity).
    rewrite Eq; clear Eq.
    specialize (IH (push_state n) (nst n) (push_state_wf n Hw)).
    rewrite nst_push_state in IH. specialize (IH ltac:(lia)). unfold compile_post in IH.
    destruct (compile h (push_state n) (nst n)) as [[n1 [s_in|]]|p|]; simpl.
    + destruct IH as (Hb & e1 & X1 & F1).
      pose proof (extends_nst _ _ _ X1) as Hn1. rewrite nst_push_state in Hn1, F1.
      assert (Hw1 : wf n1) by apply X1.
      destruct (extends_push_edge n1 (nst n) None acc Hw1) as (n2 & E2 & X2 & Hn2); [lia|lia|..].
      { left. intros e He. destruct X1 as (_ & Ee & _). rewrite Ee in He. simpl in He.
        apply in_app_or in He as [He|He]; [apply Hw in He; lia|].
        destruct F1 as [F1 _]. apply F1 in He. lia. }
      rewrite E2; simpl.
      assert (Hsin : s_in < nst n1) by (destruct F1 as (_ & [?|?] & _); lia).
      assert (H3 : exists n3, push_edge_if (rep_loops k) n2 (nst n) s_in = Ok n3 /\
         extends n2 n3 (if rep_loops k then [Edge (nst n) None s_in] else []) /\ nst n3 = nst n2).
      { unfold push_edge_if. destruct (rep_loops k).
        - apply extends_push_edge; [apply X2|lia|lia|]. apply (can_push_extends_last n1 n2 [] _ X2).
        - exists n2. split; auto. split; auto. apply extends_refl, X2. }
      destruct H3 as (n3 & E3 & X3 & Hn3). rewrite E3; simpl.
      assert (Hw3 : wf n3) by apply X3.
      destruct (extends_push_edge (push_state n3) (nst n3) None s_in) as (n4 & E4 & X4 & Hn4).
      { apply push_state_wf; auto. } { rewrite nst_push_state; lia. } { rewrite nst_push_state; lia. }
      { left. intros e He. simpl in He. apply Hw3 in He. lia. }
      rewrite E4; simpl. rewrite nst_push_state in Hn4.
      assert (H5 : exists n5, push_edge_if (rep_skips k) n4 (nst n3) acc = Ok n5 /\
         extends n4 n5 (if rep_skips k then [Edge (nst n3) None acc] else []) /\ nst n5 = nst n4).
      { unfold push_edge_if. destruct (rep_skips k).
        - apply extends_push_edge; [apply X4|lia|lia|]. apply (can_push_extends_last _ n4 [] _ X4).
        - exists n4. split; auto. split; auto. apply extends_refl, X4. }
      destruct H5 as (n5 & E5 & X5 & Hn5). rewrite E5; simpl. split.
      * intros (x & Hx & Hu). apply sub_inv_rep in Hx as [->|Hx].
        -- destruct Hu as [Hu|Hu]; [|discriminate]. destruct k; simpl in Hu; auto. eapply Hk; reflexivity.
        -- apply Hb. exists x; auto.
      * exists (e1 ++ rep_edges k (nst n) (nst n3) acc s_in). split.
        -- apply (extends_trans n (push_state n) n5 []); [apply extends_push_state; auto|].
           eapply extends_trans; [exact X1|]. unfold rep_edges.
           eapply extends_trans; [exact X2|]. eapply extends_trans; [exact X3|].
           apply (extends_trans n3 (push_state n3) n5 []); [apply extends_push_state; auto|].
           apply (extends_trans _ n4 _ [Edge (nst n3) None s_in] _ X4 X5).
        -- eapply frag_ext; [intros w; apply rep_lang_Lang; exact Hk|].
           rewrite Hn5, Hn4. apply frag_rep; [lia|lia|]. rewrite Hn3, Hn2. exact F1.
    + destruct IH as [_ Hge]. simpl. split; [constructor; apply grouped_empty_sub; auto|].
      intros H0; inversion H0.
    + destruct p; simpl in *; try tauto.
      * destruct IH as (x & Hx & Hu). exists x; split; eauto using subterm.
      * destruct IH as [Hs _]. split; [eauto using subterm|]. intros H0; inversion H0.
    + exact IH.
  - simpl. specialize (IH n acc Hw Ha). unfold compile_post in *.
    destruct (compile h n acc) as [[n' [s|]]|p|]; auto.
    + destruct IH as (Hb & new & X & F). split.
      * intros (x & Hx & Hu). apply sub_inv_group in Hx as [->|Hx].
        -- simpl in Hu. destruct Hu as [[]|Hu]; discriminate.
        -- apply Hb; exists x; auto.
      * exists new; split; auto. eapply frag_ext; [|exact F]. intros w; split; intros Hx.
        -- constructor; auto.
        -- inversion Hx; auto.
    + destruct IH as [-> Hge]. split; auto. constructor; auto.
    + destruct p; simpl in *; try tauto.
      * destruct IH as (x & Hx & Hu). exists x; split; eauto using subterm.
      * destruct IH as [Hs Hg]. split; [eauto using subterm|]. intros H0; inversion H0; auto.
  - rewrite compile_concat_eq. pose proof (concat_post hs n acc Hw Ha IH) as HC.
    destruct (seqs compile n acc hs) as [[n' a]|p|]; simpl.
    + destruct HC as (Hg & new & X & F). split; [apply bad_concat; auto|eauto].
    + destruct HC as (h & Hin & Hp). destruct p; simpl in *; try tauto.
      * destruct Hp as (x & Hx & Hu). exists x; split; eauto using subterm.
      * split; [eauto using subterm|]. intros H0; inversion H0.
    + exact HC.
  - rewrite compile_alt_eq.
    destruct (extends_push_edge (push_state n) (nst n) None acc) as (n1 & E1 & X1 & Hn1).
    { apply push_state_wf; auto. } { rewrite nst_push_state; lia. } { rewrite nst_push_state; lia. }
    { left. intros e Hin. simpl in Hin. apply Hw in Hin. lia. }
    rewrite E1; simpl. rewrite nst_push_state in Hn1.
    assert (Hw1 : wf n1) by apply X1.
    pose proof (alts_post hs (nst n) (push_state n1) (push_state_wf n1 Hw1)) as HA.
    rewrite nst_push_state in HA. specialize (HA ltac:(lia) IH).
    pose proof (alts_extends hs (nst n) (push_state n1) (push_state_wf n1 Hw1)) as HX.
    rewrite nst_push_state in HX. specialize (HX ltac:(lia) IH).
    destruct (alts (fun e m => compile e m (nst n)) hs (push_state n1)) as [[n2 ts]|p|]; simpl.
    + destruct (HX _ _ eq_refl) as ((e2 & X2 & Fe) & Ht).
      pose proof (extends_nst _ _ _ X2) as Hle. rewrite nst_push_state in Hle.
      assert (Hcp : can_push n2 (nst n1)).
      { left. intros e He. destruct X2 as (_ & Ee & _). rewrite Ee in He. simpl in He.
        apply in_app_or in He as [He|He].
        - apply Hw1 in He. lia.
        - apply Fe in He. lia. }
      destruct HA as [(ss & e2' & -> & Hg & X2' & F2)|(HN & h & Hin & Hge)].
      * assert (e2' = e2) as ->.
        { destruct X2 as (_ & Ea & _), X2' as (_ & Eb & _). rewrite Ea in Eb. apply app_inv_head in Eb; auto. }
        assert (Hss : Forall (fun s => s < nst n2) ss).
        { apply Forall_forall. intros s Hs. apply Ht. apply in_map; auto. }
        destruct (push_targets_ok ss n2 (nst n1)) as (n3 & E3 & X3 & Hn3); auto.
        { apply X2. } { lia. }
        rewrite E3; simpl. split; [apply bad_alt; auto|].
        exists ([Edge (nst n) None acc] ++ e2 ++ map (fun s => Edge (nst n1) None s) ss). split.
        -- apply (extends_trans n (push_state n) n3 []); [apply extends_push_state; auto|].
           apply (extends_trans _ n1 _ [Edge (nst n) None acc] _ X1).
           apply (extends_trans n1 (push_state n1) n3 []); [apply extends_push_state; auto|].
           eapply extends_trans; eauto.
        -- rewrite Hn1 in *. rewrite Hn3.
           replace (nst n + 1 + 1) with (nst n + 2) in F2 by lia.
           eapply frag_ext; [|eapply frag_alt; eauto; lia].
           intros w. apply Exists_map_Lang.
      * rewrite push_targets_none; simpl; auto; [|apply X2|lia].
        split.
        -- eapply sub_alt; eauto. apply grouped_empty_sub; auto.
        -- intros H0; inversion H0.
    + destruct HA as (h & Hin & Hp). destruct p; simpl in *; try tauto.
      * destruct Hp as (x & Hx & Hu). exists x; split; eauto using subterm.
      * split; [eauto using subterm|]. intros H0; inversion H0.
    + exact HA.
Qed.

(** ** [from_regex] *)

Lemma wf_init : wf nfa_init.
Proof.
  split.
  - intros e [].
  - intros [|[|i]] st Hst; simpl in Hst.
    + injection Hst as <-. unfold contig; simpl. intros e [].
    + injection Hst as <-. unfold contig; simpl. intros e [].
    + destruct i; discriminate.
Qed.

(** The supported expressions. *)
Definition compilable (h : hir) : Prop := ~ bad h \/ grouped_empty h.

Lemma grouped_empty_bad h : grouped_empty h -> bad h.
Proof. intros H. exists HEmpty. split; [apply grouped_empty_sub; auto|auto]. Qed.

(** Shape of the NFA of a regex. *)
Record regex_nfa (h : hir) (n : nfa) : Prop := {
  rn_wf : wf n;
  rn_size : 2 <= nst n;
  rn_accs : exists k, accs n = [false; true] ++ repeat false k;
  rn_start : exists t, t <> START_IDX /\
      forall e, In e (edges n) -> e_from e = START_IDX -> e = Edge START_IDX None t;
  rn_no_in : forall e, In e (edges n) -> e_to e <> START_IDX;
  rn_no_out : forall e, In e (edges n) -> e_from e <> FINAL_ACCEPT_IDX;
  rn_lang : forall w, path (edges n) START_IDX w FINAL_ACCEPT_IDX <-> Lang h w }.

Lemma from_regex_post h :
  match from_regex h with
  | Ok n => compilable h /\ regex_nfa h n
  | Panic p => good_panic h p
  | Diverge => False
  end.
Proof.
  unfold from_regex.
  pose proof (compile_correct h nfa_init FINAL_ACCEPT_IDX wf_init) as H.
  specialize (H ltac:(unfold nst, FINAL_ACCEPT_IDX; simpl; lia)). unfold compile_post in H.
  destruct (compile h nfa_init FINAL_ACCEPT_IDX) as [[n r]|p|]; simpl; auto.
  assert (Hcase : exists s new, (match r with Some s => s | None => FINAL_ACCEPT_IDX end) = s /\
     compilable h /\ extends nfa_init n new /\ frag new 2 (nst n) FINAL_ACCEPT_IDX s (Lang h)).
  { destruct r as [s|].
    - destruct H as (Hb & new & X & F). exists s, new. split; auto. split; [left; auto|]. auto.
    - destruct H as [-> Hge]. exists FINAL_ACCEPT_IDX, []. split; auto. split; [right; auto|].
      split; [apply extends_refl, wf_init|]. eapply frag_ext; [|apply frag_id].
      intros w; simpl. symmetry; apply grouped_empty_lang; auto. }
  destruct Hcase as (s & new & -> & Hc & X & F). clear H.
  pose proof (extends_nst _ _ _ X) as Hn. change (nst nfa_init) with 2 in Hn.
  destruct F as (F1 & F2 & F3). unfold FINAL_ACCEPT_IDX in *.
  destruct (extends_push_edge n START_IDX None s) as (n' & E & X' & Hn').
  { apply X. } { unfold START_IDX; lia. } { lia. }
  { left. intros e He. destruct X as (_ & Ee & _). rewrite Ee in He. simpl in He.
    apply F1 in He. unfold START_IDX; lia. }
  rewrite E. split; auto.
  pose proof (extends_trans _ _ _ _ _ X X') as (Hw & Ee & k & Ha). simpl in Ee.
  constructor.
  - exact Hw.
  - lia.
  - exists k. exact Ha.
  - exists s. split; [unfold START_IDX; lia|]. intros e He Hf. rewrite Ee in He.
    apply in_app_or in He as [He|[<-|[]]]; auto.
    apply F1 in He. unfold START_IDX in *; lia.
  - intros e He. rewrite Ee in He. apply in_app_or in He as [He|[<-|[]]].
    + apply F1 in He. unfold START_IDX; lia.
    + unfold START_IDX; simpl; lia.
  - intros e He. rewrite Ee in He. apply in_app_or in He as [He|[<-|[]]].
    + apply F1 in He. unfold FINAL_ACCEPT_IDX; lia.
    + simpl; unfold START_IDX, FINAL_ACCEPT_IDX; lia.
  - intros w. rewrite Ee. split.
    + intros Hp.
      apply path_inv in Hp as [(_ & E0)|[(t & Hin & Hp)|(m & t & c & w' & _ & Hin & _)]].
      * discriminate.
      * apply in_app_or in Hin as [Hin|[E0|[]]].
        { apply F1 in Hin. simpl in Hin. unfold START_IDX in Hin. lia. }
        injection E0 as <-. apply F3.
        revert Hp. apply (path_restrict (fun y => 2 <= y < nst n \/ y = 1)); auto.
        intros e He Hf. apply in_app_or in He as [He|[<-|[]]].
        -- split; auto. apply F1; auto.
        -- simpl in Hf. unfold START_IDX in Hf. lia.
      * apply in_app_or in Hin as [Hin|[E0|[]]]; [|discriminate].
        apply F1 in Hin. simpl in Hin. unfold START_IDX in Hin. lia.
    + intros Hw'. apply F3 in Hw'. eapply path_eps; [apply in_or_app; right; left; reflexivity|].
      eapply path_incl; [|exact Hw']. apply incl_appl, incl_refl.
Qed.

(** C02, exactness. *)
Lemma from_regex_ok_iff h : (exists n, from_regex h = Ok n) <-> compilable h.
Proof.
  pose proof (from_regex_post h) as H. destruct (from_regex h) as [n|p|].
  - split; [intros _; apply H|eauto].
  - split; [intros [n E]; discriminate|]. intros [Hb|Hg]; exfalso.
    + destruct p; simpl in H; auto.
      * apply Hb. destruct H as (x & Hx & Hu). exists x; auto.
      * apply Hb. exists HEmpty. tauto.
    + destruct p; simpl in H; auto.
      * destruct H as (x & Hx & Hu). clear - Hg Hx Hu. induction Hg.
        -- inversion Hx; subst; auto.
        -- apply sub_inv_group in Hx as [->|Hx]; auto.
      * tauto.
  - contradiction.
Qed.

(** ** Epsilon closure *)

Definition eps_reach (n : nfa) (s t : nat) : Prop := path (edges n) s [] t.

Lemma eps_reach_step n s t u :
  eps_reach n s t -> In (Edge t None u) (edges n) -> eps_reach n s u.
Proof.
  intros H1 H2. unfold eps_reach. change (@nil N) with (@nil N ++ []).
  eapply path_app; eauto. eapply path_eps; eauto. constructor.
Qed.

Lemma hs_insert_In x l y : In y (hs_insert x l) <-> y = x \/ In y l.
Proof.
  unfold hs_insert. destruct (set_mem x l) eqn:E.
  - apply set_mem_In in E. intuition (subst; auto).
  - rewrite in_app_iff. simpl. intuition auto.
Qed.

Lemma hs_insert_NoDup x l : NoDup l -> NoDup (hs_insert x l).
Proof.
  intros H. unfold hs_insert. destruct (set_mem x l) eqn:E; auto.
  apply set_mem_false in E. apply NoDup_snoc; auto.
Qed.

Lemma push_eps_spec es ret : forall stack,
  exists ts, push_eps es ret stack = ts ++ stack /\
    length ts <= length es /\
    (forall t, In t ts <-> exists e, In e es /\ e_label e = None /\ e_to e = t /\ ~ In t ret).
Proof.
  induction es as [|e es IH]; intros stack; simpl.
  - exists []. split; auto. split; auto. intros t; split; [intros []|intros (e & [] & _)].
  - destruct (e_label e) as [m|] eqn:El.
    + destruct (IH stack) as (ts & E & Hl & Ht). exists ts. split; auto. split; [lia|].
      intros t. rewrite Ht. split.
      * intros (e' & ? & ?). exists e'; auto.
      * intros (e' & [<-|Hin] & Hlab & ?); [congruence|eauto].
    + destruct (set_mem (e_to e) ret) eqn:Em.
      * apply set_mem_In in Em. destruct (IH stack) as (ts & E & Hl & Ht). exists ts.
        split; auto. split; [lia|]. intros t. rewrite Ht. split.
        -- intros (e' & ? & ?). exists e'; auto.
        -- intros (e' & [<-|Hin] & Hlab & Hto & Hn); [subst; contradiction|eauto].
      * apply set_mem_false in Em. destruct (IH (e_to e :: stack)) as (ts & E & Hl & Ht).
        exists (ts ++ [e_to e]). split; [rewrite E, <- app_assoc; reflexivity|].
        split; [rewrite app_length; simpl; lia|]. intros t. rewrite in_app_iff, Ht. simpl. split.
        -- intros [(e' & ? & ?)|[<-|[]]]; [exists e'; auto|exists e; auto].
        -- intros (e' & [<-|Hin] & Hlab & Hto & Hn); [auto|left; eauto].
Qed.

(** Number of edges leaving states not in [ret]: bounds what can still be pushed. *)
Definition pending (n : nfa) (ret : list nat) : nat :=
  length (filter (fun e => negb (set_mem (e_from e) ret)) (edges n)).

Lemma pending_insert_new n s ret : ~ In s ret ->
  pending n (hs_insert s ret) + length (filter (fun e => e_from e =? s) (edges n)) <= pending n ret.
Proof.
  intros Hs. unfold pending. induction (edges n) as [|e l IH]; simpl; auto.
  destruct (e_from e =? s) eqn:E.
  - apply Nat.eqb_eq in E. rewrite E. rewrite (proj2 (set_mem_false s ret) Hs).
    rewrite (proj2 (set_mem_In s (hs_insert s ret))) by (apply hs_insert_In; auto). simpl. lia.
  - apply Nat.eqb_neq in E.
    assert (set_mem (e_from e) (hs_insert s ret) = set_mem (e_from e) ret) as ->.
    { apply eq_true_iff_eq. rewrite !set_mem_In, hs_insert_In. intuition auto. }
    destruct (set_mem (e_from e) ret); simpl; lia.
Qed.

Lemma pending_insert_old n s ret : In s ret -> pending n (hs_insert s ret) = pending n ret.
Proof.
  intros Hs. unfold hs_insert. rewrite (proj2 (set_mem_In s ret) Hs). reflexivity.
Qed.

Definition eps_targets (n : nfa) (s t : nat) : Prop := In (Edge s None t) (edges n).

(** Loop invariant: everything reached from a processed state is processed or above it. *)
Definition eps_inv (n : nfa) (init ret stack : list nat) : Prop :=
  (forall s, In s ret -> s < nst n) /\ (forall s, In s stack -> s < nst n) /\ NoDup ret /\
  (forall t, In t ret \/ In t stack -> exists s, In s init /\ eps_reach n s t) /\
  (forall s, In s init -> In s ret \/ In s stack) /\
  (forall s t, In s ret -> eps_targets n s t -> In t ret \/ In t stack) /\
  (forall a s b t, stack = a ++ s :: b -> In s ret -> eps_targets n s t -> In t ret \/ In t a).

Lemma eps_inv_done n init ret : eps_inv n init ret [] ->
  NoDup ret /\ (forall s, In s ret -> s < nst n) /\
  forall t, In t ret <-> exists s, In s init /\ eps_reach n s t.
Proof.
  intros (I1 & I2 & Ind & I3 & I4 & I5 & I6). split; [auto|]. split; [auto|].
  intros t; split.
  - intros Ht. apply I3; auto.
  - intros (s & Hs & Hr). unfold eps_reach in Hr. remember [] as w eqn:Ew in Hr.
    assert (Hs' : In s ret) by (destruct (I4 s Hs) as [?|[]]; auto). clear Hs.
    induction Hr; subst; auto; try discriminate.
    apply IHHr; auto. destruct (I5 _ _ Hs' H) as [?|[]]; auto.
Qed.

Lemma eps_loop_ok n init : wf n -> forall fuel ret stack,
  eps_inv n init ret stack -> length stack + pending n ret <= fuel ->
  exists r, eps_loop fuel n ret stack = Ok r /\ NoDup r /\ (forall s, In s r -> s < nst n) /\
    forall t, In t r <-> exists s, In s init /\ eps_reach n s t.
Proof.
  intros Hw fuel. induction fuel as [|fuel IH]; intros ret stack Hi Hf.
  - destruct stack as [|s stack]; [|simpl in Hf; lia]. simpl. exists ret.
    split; auto. apply eps_inv_done; auto.
  - destruct stack as [|s stack].
    + simpl. exists ret. split; auto. apply eps_inv_done; auto.
    + simpl. destruct Hi as (I1 & I2 & Ind & I3 & I4 & I5 & I6).
      assert (Hs : s < nst n) by (apply I2; left; reflexivity).
      rewrite (edge_iter_wf n s Hw Hs). simpl.
      set (es := filter (fun e => e_from e =? s) (edges n)).
      set (ret' := hs_insert s ret).
      destruct (push_eps_spec es ret' stack) as (ts & Ep & Hlen & Hts). rewrite Ep.
      assert (Hes : forall e, In e es <-> In e (edges n) /\ e_from e = s).
      { intros e. unfold es. rewrite filter_In, Nat.eqb_eq. reflexivity. }
      assert (Hts' : forall t, In t ts <-> eps_targets n s t /\ ~ In t ret').
      { intros t. rewrite Hts. split.
        - intros (e & He & Hl & Ht & Hn). apply Hes in He as [He Hfr]. split; auto.
          unfold eps_targets. destruct e as [f l to]; simpl in *; subst; auto.
        - intros [Ht Hn]. exists (Edge s None t). split; [apply Hes; auto|auto]. }
      apply IH.
      * repeat split.
        -- intros x Hx. apply hs_insert_In in Hx as [->|Hx]; auto.
        -- intros x Hx. apply in_app_or in Hx as [Hx|Hx].
           ++ apply Hts' in Hx as [Hx _]. apply Hw in Hx. apply Hx.
           ++ apply I2; right; auto.
        -- apply hs_insert_NoDup; auto.
        -- intros t Ht.
           assert (Hor : t = s \/ In t ret \/ In t ts \/ In t stack).
           { destruct Ht as [Ht|Ht]; [apply hs_insert_In in Ht; tauto|apply in_app_or in Ht; tauto]. }
           destruct Hor as [->|[Hr|[Hr|Hr]]].
           ++ apply I3. right; left; reflexivity.
           ++ apply I3; auto.
           ++ apply Hts' in Hr as [Hr _]. destruct (I3 s) as (s0 & Hs0 & Hreach); [right; left; reflexivity|].
              exists s0; split; auto. eapply eps_reach_step; eauto.
           ++ apply I3; right; right; auto.
        -- intros x Hx. destruct (I4 x Hx) as [Hr|[<-|Hr]].
           ++ left; apply hs_insert_In; auto.
           ++ left; apply hs_insert_In; auto.
           ++ right; apply in_or_app; auto.
        -- intros x t Hx Ht. apply hs_insert_In in Hx as [->|Hx].
           ++ destruct (in_dec Nat.eq_dec t ret') as [Hin|Hnin]; auto.
              right; apply in_or_app; left. apply Hts'; auto.
           ++ destruct (I5 _ _ Hx Ht) as [Hr|[<-|Hr]].
              ** left; apply hs_insert_In; auto.
              ** left; apply hs_insert_In; auto.
              ** right; apply in_or_app; auto.
        -- intros a x b t Estack Hx Ht.
           (* x is in ts or in the old stack *)
           destruct (in_dec Nat.eq_dec t ret') as [Hin|Hnin]; auto. right.
           assert (Hxs : ~ In x ts) by (intros Hc; apply Hts' in Hc as [_ Hc]; contradiction).
           (* hence the split lies in the old stack and [a] includes [ts] *)
           assert (Ha : exists a', a = ts ++ a' /\ stack = a' ++ x :: b).
           { revert Estack Hxs. clear. revert a. induction ts as [|y ts IHt]; intros a E Hn; simpl in *.
             - exists a; auto.
             - destruct a as [|z a]; simpl in E.
               + injection E as -> E. exfalso; apply Hn; auto.
               + injection E as -> E. destruct (IHt a E) as (a' & -> & E'); [tauto|]. exists a'; auto. }
           destruct Ha as (a' & -> & Es). apply in_or_app.
           apply hs_insert_In in Hx as [->|Hx].
           ++ left. apply Hts'; auto.
           ++ destruct (I6 (s :: a') x b t) as [Hr|[<-|Hr]]; auto.
              ** rewrite Es; reflexivity.
              ** exfalso; apply Hnin; apply hs_insert_In; auto.
              ** exfalso; apply Hnin; apply hs_insert_In; auto.
      * rewrite app_length. destruct (in_dec Nat.eq_dec s ret) as [Hin|Hnin].
        -- assert (ts = []) as ->.
           { destruct ts as [|t ts]; auto. exfalso.
             assert (Ht : In t (t :: ts)) by (left; reflexivity).
             apply Hts' in Ht as [Ht Hn]. apply Hn, hs_insert_In.
             destruct (I6 [] s stack t eq_refl Hin Ht) as [?|[]]; auto. }
           unfold ret'. rewrite pending_insert_old by auto. simpl in *. lia.
        -- pose proof (pending_insert_new n s ret Hnin) as Hp. fold es ret' in Hp. simpl in Hf. lia.
Qed.

(** The closure terminates, never panics, and computes the states reachable by epsilon
    edges, whatever the iteration order. *)
Lemma nfa_epsilon_closure_ok n set : wf n -> (forall s, In s set -> s < nst n) ->
  exists r, nfa_epsilon_closure n set = Ok r /\ NoDup r /\ (forall s, In s r -> s < nst n) /\
    forall t, In t r <-> exists s, In s set /\ eps_reach n s t.
Proof.
  intros Hw Hs. unfold nfa_epsilon_closure. eapply eps_loop_ok; auto.
  - split; [intros s []|]. split; [intros s Hin; apply Hs; rewrite in_rev; auto|].
    split; [constructor|]. split.
    { intros t [[]|Ht]. exists t. split; [rewrite in_rev; auto|constructor]. }
    split; [intros s Hin; right; rewrite <- in_rev; auto|].
    split; [intros s t []|intros a s b t _ []].
  - rewrite rev_length. unfold pending.
    assert (Hle : forall (f : edge -> bool) l, length (filter f l) <= length l).
    { intros f l; induction l as [|x l IHl]; simpl; auto. destruct (f x); simpl; lia. }
    specialize (Hle (fun e => negb (set_mem (e_from e) [])) (edges n)). lia.
Qed.

(** ** Moves and simulation *)

Lemma move_fold_In es c : forall ret y,
  In y (fold_left (fun ret e => match e_label e with
                                | Some m => if matches m c then hs_insert (e_to e) ret else ret
                                | None => ret end) es ret) <->
  In y ret \/ exists e m, In e es /\ e_label e = Some m /\ matches m c = true /\ e_to e = y.
Proof.
  induction es as [|e es IH]; intros ret y; simpl.
  - split; auto. intros [?|(e & m & [] & _)]; auto.
  - rewrite IH. clear IH. destruct (e_label e) as [m|] eqn:El; [destruct (matches m c) eqn:Em|].
    + rewrite hs_insert_In. split.
      * intros [[->|?]|(e' & m' & ? & ?)]; auto.
        -- right. exists e, m; auto.
        -- right. exists e', m'; auto.
      * intros [?|(e' & m' & [<-|?] & ? & ? & ?)]; auto. right; exists e', m'; auto.
    + split.
      * intros [?|(e' & m' & ? & ?)]; auto. right; exists e', m'; auto.
      * intros [?|(e' & m' & [<-|?] & ? & ? & ?)]; auto; [congruence|]. right; exists e', m'; auto.
    + split.
      * intros [?|(e' & m' & ? & ?)]; auto. right; exists e', m'; auto.
      * intros [?|(e' & m' & [<-|?] & ? & ? & ?)]; auto; [congruence|]. right; exists e', m'; auto.
Qed.

Lemma move_state_ok n c : wf n -> forall set, (forall s, In s set -> s < nst n) ->
  exists r, move_state n set c = Ok r /\
    forall t, In t r <-> exists s m, In s set /\ In (Edge s (Some m) t) (edges n) /\ matches m c = true.
Proof.
  intros Hw set Hs. unfold move_state.
  assert (G : forall l ret, (forall s, In s l -> s < nst n) ->
    exists r, foldM (fun ret s =>
      let* es := edge_iter n s in
      Ok (fold_left (fun ret e => match e_label e with
                                | Some m => if matches m c then hs_insert (e_to e) ret else ret
                                | None => ret
                                end) es ret)) l ret = Ok r /\
     forall t, In t r <-> In t ret \/
       exists s m, In s l /\ In (Edge s (Some m) t) (edges n) /\ matches m c = true).
  { induction l as [|s l IH]; intros ret Hl; simpl.
    - exists ret. split; auto. intros t; split; auto. intros [?|(s & m & [] & _)]; auto.
    - rewrite edge_iter_wf; [|auto|apply Hl; left; reflexivity]. simpl.
      destruct (IH (fold_left (fun ret e => match e_label e with
                                | Some m => if matches m c then hs_insert (e_to e) ret else ret
                                | None => ret
                                end) (filter (fun e => e_from e =? s) (edges n)) ret)) as (r & E & Hr).
      { intros x Hx; apply Hl; right; exact Hx. }
      exists r. split; [exact E|]. intros t. rewrite Hr, move_fold_In. split.
      + intros [[?|(e & m & He & El & Em & Et)]|(s' & m & ? & ?)]; auto.
        * apply filter_In in He as [He Hfe]. apply Nat.eqb_eq in Hfe. right. exists s, m.
          split; auto. split; auto. destruct e; simpl in *; subst; auto.
        * right; exists s', m; auto.
      + intros [?|(s' & m & [<-|Hin] & He & Em)]; auto.
        * left. right. exists (Edge s (Some m) t), m. rewrite filter_In, Nat.eqb_eq. auto.
        * right. exists s', m; auto. }
  destruct (G set [] Hs) as (r & E & Hr). exists r. split; auto.
  intros t. rewrite Hr. simpl. intuition auto.
Qed.

(** States reachable on a word. *)
Lemma path_snoc_split E s w c t :
  path E s (w ++ [c]) t -> exists u v m,
    path E s w u /\ In (Edge u (Some m) v) E /\ matches m c = true /\ path E v [] t.
Proof.
  remember (w ++ [c]) as w' eqn:Ew. intros Hp. revert w Ew.
  induction Hp as [s|s t u w0 Hin Hp IH|s t u m c0 w0 Hin Hm Hp IH]; intros w Ew.
  - destruct w; discriminate.
  - destruct (IH w Ew) as (x & y & m & H1 & H2 & H3 & H4). exists x, y, m.
    split; auto. eapply path_eps; eauto.
  - destruct w as [|a w]; simpl in Ew.
    + injection Ew as -> ->. exists s, t, m. repeat split; auto. constructor.
    + injection Ew as -> Ew. destruct (IH w Ew) as (x & y & m' & H1 & H2 & H3 & H4).
      exists x, y, m'. split; auto. eapply path_chr; eauto.
Qed.

Lemma path_nst n s w t : wf n -> s < nst n -> path (edges n) s w t -> t < nst n.
Proof.
  intros [He _] Hs Hp. revert Hs. induction Hp; intros Hs; auto.
  - apply IHHp. apply He in H. apply H.
  - apply IHHp. apply He in H. apply H.
Qed.

Lemma simulate_from_ok shuf n : wf n -> (forall k l, Permutation (shuf k l) l) ->
  forall s pre k set, (forall t, In t set -> t < nst n) ->
  (forall t, In t set <-> path (edges n) START_IDX pre t) ->
  exists r, simulate_from shuf n k set s = Ok r /\
    forall t, In t r <-> path (edges n) START_IDX (pre ++ s) t.
Proof.
  intros Hw Hsh s. induction s as [|c s IH]; intros pre k set Hlt Hset; simpl.
  - exists set. rewrite app_nil_r. auto.
  - destruct (move_state_ok n c Hw (shuf k set)) as (m & Em & Hm).
    { intros t Ht. apply Hlt. eapply Permutation_in; eauto. }
    rewrite Em; simpl.
    destruct (nfa_epsilon_closure_ok n (shuf (S k) m) Hw) as (r & Er & _ & Hrlt & Hr).
    { intros t Ht. eapply Permutation_in in Ht; [|apply Hsh]. apply Hm in Ht as (s0 & m0 & _ & He & _).
      apply Hw in He. apply He. }
    rewrite Er; simpl.
    destruct (IH (pre ++ [c]) (S (S k)) r Hrlt) as (r' & Er' & Hr').
    { intros t. rewrite Hr. split.
      - intros (v & Hv & Hreach). eapply Permutation_in in Hv; [|apply Hsh].
        apply Hm in Hv as (u & mm & Hu & He & Hmm).
        eapply Permutation_in in Hu; [|apply Hsh]. apply Hset in Hu.
        eapply path_app; eauto. eapply path_chr; eauto.
      - intros Hp. apply path_snoc_split in Hp as (u & v & mm & H1 & H2 & H3 & H4).
        exists v. split; auto. apply Permutation_in with m; [symmetry; apply Hsh|].
        apply Hm. exists u, mm. split; auto. apply Permutation_in with set; [symmetry; apply Hsh|].
        apply Hset; auto. }
    exists r'. split; auto. rewrite <- app_assoc in Hr'. exact Hr'.
Qed.

Lemma accepting_states_In n s :
  In s (accepting_states n) <-> exists st, nth_error (states n) s = Some st /\ is_accept st = true.
Proof.
  unfold accepting_states. rewrite filter_In, in_seq. split.
  - intros [_ H]. destruct (nth_error (states n) s) as [st|]; [eauto|discriminate].
  - intros (st & E & Ha). rewrite E. split; auto. apply nth_error_lt in E. lia.
Qed.

Lemma regex_nfa_accepting h n s : regex_nfa h n -> In s (accepting_states n) <-> s = FINAL_ACCEPT_IDX.
Proof.
  intros R. destruct (rn_accs _ _ R) as [k Hk].
  rewrite accepting_states_In. unfold accs in Hk.
  assert (Hn : forall i, nth_error (map is_accept (states n)) i = Some true <-> i = 1).
  { intros i. rewrite Hk. simpl. destruct i as [|[|i]]; simpl.
    - split; [discriminate|lia].
    - split; auto.
    - split; [|lia]. intros E. exfalso. apply nth_error_In in E. apply repeat_spec in E. discriminate. }
  unfold FINAL_ACCEPT_IDX. rewrite <- (Hn s). rewrite nth_error_map. split.
  - intros (st & E & Ha). rewrite E; simpl. congruence.
  - destruct (nth_error (states n) s) as [st|]; simpl; [|discriminate]. intros E. injection E as E. eauto.
Qed.

(** C01. *)
Lemma nfa_simulate_correct h n shuf w :
  from_regex h = Ok n -> (forall k l, Permutation (shuf k l) l) ->
  exists b, nfa_simulate shuf n w = Ok b /\ (b = true <-> Lang h w).
Proof.
  intros Hn Hsh. pose proof (from_regex_post h) as H. rewrite Hn in H. destruct H as [_ R].
  pose proof (rn_wf _ _ R) as Hw. unfold nfa_simulate.
  destruct (nfa_epsilon_closure_ok n (shuf 0 [START_IDX]) Hw) as (r & Er & _ & Hrlt & Hr).
  { intros s Hs. eapply Permutation_in in Hs; [|apply Hsh]. destruct Hs as [<-|[]].
    pose proof (rn_size _ _ R). unfold START_IDX; lia. }
  rewrite Er; simpl.
  destruct (simulate_from_ok shuf n Hw Hsh w [] 1 r Hrlt) as (f & Ef & Hf).
  { intros t. rewrite Hr. split.
    - intros (s & Hs & Hreach). eapply Permutation_in in Hs; [|apply Hsh]. destruct Hs as [<-|[]]. exact Hreach.
    - intros Hp. exists START_IDX. split; auto. apply Permutation_in with [START_IDX]; [symmetry; apply Hsh|].
      left; reflexivity. }
  rewrite Ef; simpl. eexists; split; [reflexivity|]. simpl in Hf.
  rewrite <- (rn_lang _ _ R w).
  assert (E : has_accepting_states f (accepting_states n) = true <-> In FINAL_ACCEPT_IDX f).
  { unfold has_accepting_states. destruct f as [|x f']; [split; [discriminate|intros []]|].
    rewrite existsb_exists. split.
    - intros (y & Hy & Hm). apply set_mem_In in Hm. apply (regex_nfa_accepting h n y R) in Hm. subst; auto.
    - intros Hin. exists FINAL_ACCEPT_IDX. split; auto. apply set_mem_In.
      apply (regex_nfa_accepting h n _ R); reflexivity. }
  rewrite E, Hf. reflexivity.
Qed.
