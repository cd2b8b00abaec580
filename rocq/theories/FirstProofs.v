(** FIRST: correctness on epsilon-free grammars, exactness of the recursion bound, and when the
    recursion ends. *)
From Verif Require Import Base Grammar GrammarSpec GrammarProofs First.

(** ** Leftmost symbols *)

(** [lms g x y]: [y] is reached from [x] by repeatedly replacing a non-terminal by the first
    symbol of one of its bodies. *)
Inductive lms (g : grammar) : sym -> sym -> Prop :=
| lms_refl x : lms g x x
| lms_step A y b z : rule g A (y :: b) -> lms g y z -> lms g (SNon A) z.

Lemma lms_trans g x y z : lms g x y -> lms g y z -> lms g x z.
Proof. induction 1; auto. intros; eapply lms_step; eauto. Qed.

Lemma derives_trans g u v w : derives g u v -> derives g v w -> derives g u w.
Proof. induction 1; auto. intros; eapply derives_step; eauto. Qed.

Lemma derives1_ctx g a u v c : derives1 g u v -> derives1 g (a ++ u ++ c) (a ++ v ++ c).
Proof.
  intros [a' A b c' R]. replace (a ++ (a' ++ SNon A :: c') ++ c) with ((a ++ a') ++ SNon A :: (c' ++ c)).
  - replace (a ++ (a' ++ b ++ c') ++ c) with ((a ++ a') ++ b ++ (c' ++ c)).
    + constructor; exact R.
    + rewrite <- !app_assoc. reflexivity.
  - rewrite <- !app_assoc. reflexivity.
Qed.

Lemma derives_ctx g a u v c : derives g u v -> derives g (a ++ u ++ c) (a ++ v ++ c).
Proof. induction 1; [constructor|]. eapply derives_step; [apply derives1_ctx|]; eassumption. Qed.

Lemma derives_rule g A b : rule g A b -> derives1 g [SNon A] b.
Proof. intros R. pose proof (derives1_intro g [] A b [] R) as H. simpl in H. rewrite app_nil_r in H. exact H. Qed.

Lemma lms_derives g x y : lms g x y -> exists b, derives g [x] (y :: b).
Proof.
  induction 1 as [x|A y b z R _ [b' IH]].
  - exists []. constructor.
  - exists (b' ++ b). eapply derives_step; [apply derives_rule, R|].
    pose proof (derives_ctx g [] [y] (z :: b') b IH) as H. exact H.
Qed.

Lemma derives1_head g x u v : eps_free g -> derives1 g (x :: u) v ->
  exists y w, v = y :: w /\ (y = x \/ exists A b, x = SNon A /\ rule g A (y :: b)).
Proof.
  intros He H. inversion H as [a A b c R E1 E2]; subst.
  destruct a as [|a0 a]; simpl in *; injection E1 as E1 E3; subst.
  - destruct b as [|y b].
    + exfalso. destruct R as (p & Hp & _ & Eb). apply He in Hp. tauto.
    + exists y, (b ++ u). split; [reflexivity|]. right. eauto.
  - exists x, (a ++ b ++ c). auto.
Qed.

Lemma derives_head g u v : eps_free g -> derives g u v -> forall x u', u = x :: u' ->
  exists y w, v = y :: w /\ lms g x y.
Proof.
  intros He. induction 1 as [u|u v w H _ IH]; intros x u' ->.
  - exists x, u'. split; [reflexivity|constructor].
  - apply derives1_head in H as (y & w' & -> & Hy); [|exact He].
    destruct (IH _ _ eq_refl) as (z & w'' & -> & Hz). exists z, w''. split; [reflexivity|].
    destruct Hy as [-> | (A & b & -> & R)]; [exact Hz|]. eapply lms_step; eauto.
Qed.

Lemma derives_cons_head g x u y w : eps_free g -> derives g (x :: u) (y :: w) -> lms g x y.
Proof.
  intros He H. destruct (derives_head _ _ _ He H _ _ eq_refl) as (z & w' & E & Hl).
  injection E as -> _. exact Hl.
Qed.

(** ** Results without the accumulated set *)

Fixpoint out_body (rec : sym -> res bool) (added : bool) (l : list sym) : res bool :=
  match l with
  | [] => Ok added
  | y :: l' => let* b := rec y in if b then out_body rec true l' else Ok added
  end.
Fixpoint out_prods (rec : sym -> res bool) (added : bool) (ps : list (nat * production)) : res bool :=
  match ps with
  | [] => Ok added
  | (_, p) :: ps' => let* a := out_body rec added (p_syms p) in out_prods rec a ps'
  end.
Fixpoint out (fuel : nat) (g : grammar) (x : sym) : res bool :=
  match as_non x with
  | None => Ok (eqb x SEps)
  | Some n => match fuel with
              | O => Diverge
              | S f => let* ps := production_iter g n in out_prods (out f g) false ps
              end
  end.

Definition kind (r : res (list sym * bool)) : res bool := let* (_, b) := r in Ok b.

Lemma kind_body rec orec : (forall s y, kind (rec s y) = orec y) ->
  forall l s a, kind (first_body rec s a l) = out_body orec a l.
Proof.
  intros H. induction l as [|y l IH]; intros s a; simpl; [reflexivity|].
  specialize (H s y). destruct (rec s y) as [[s' b]| |]; simpl in *; rewrite <- H; simpl; auto.
  destruct b; simpl; auto.
Qed.

Lemma kind_prods rec orec : (forall s y, kind (rec s y) = orec y) ->
  forall l s a, kind (first_prods rec s a l) = out_prods orec a l.
Proof.
  intros H. induction l as [|[i p] l IH]; intros s a; simpl; [reflexivity|].
  pose proof (kind_body rec orec H (p_syms p) s a) as H1.
  destruct (first_body rec s a (p_syms p)) as [[s' b]| |]; simpl in *; rewrite <- H1; simpl; auto.
Qed.

Lemma kind_first f g : forall s x, kind (first_sym f g s x) = out f g x.
Proof.
  induction f as [|f IH]; intros s x; simpl; destruct (as_non x) as [n|]; try reflexivity.
  destruct (production_iter g n); simpl; auto. apply kind_prods, IH.
Qed.

Lemma first_sym_ok_out f g s x : is_ok (first_sym f g s x) = is_ok (out f g x).
Proof. rewrite <- (kind_first f g s x). destruct (first_sym f g s x) as [[]| |]; reflexivity. Qed.

(** More fuel does not change a result. *)
Lemma out_body_mono (r r' : sym -> res bool) : (forall z, r z <> Diverge -> r' z = r z) ->
  forall l a, out_body r a l <> Diverge -> out_body r' a l = out_body r a l.
Proof.
  intros H. induction l as [|y l IH]; intros a Hd; simpl in *; auto.
  destruct (r y) as [b|p|] eqn:E.
  - rewrite (H y) by congruence. rewrite E. simpl in *. destruct b; auto.
  - rewrite (H y) by congruence. rewrite E. reflexivity.
  - simpl in Hd. congruence.
Qed.
Lemma out_prods_mono (r r' : sym -> res bool) : (forall z, r z <> Diverge -> r' z = r z) ->
  forall l a, out_prods r a l <> Diverge -> out_prods r' a l = out_prods r a l.
Proof.
  intros H. induction l as [|[i p] l IH]; intros a Hd; simpl in *; auto.
  destruct (out_body r a (p_syms p)) as [b|q|] eqn:E.
  - rewrite (out_body_mono r r' H) by congruence. rewrite E. simpl in *. auto.
  - rewrite (out_body_mono r r' H) by congruence. rewrite E. reflexivity.
  - simpl in Hd. congruence.
Qed.
Lemma out_mono1 f g : forall x, out f g x <> Diverge -> out (S f) g x = out f g x.
Proof.
  induction f as [|f IH]; intros x Hd.
  - simpl in *. destruct (as_non x); congruence.
  - change (out (S (S f)) g x) with
      (match as_non x with None => Ok (eqb x SEps)
       | Some n => let* ps := production_iter g n in out_prods (out (S f) g) false ps end).
    change (out (S f) g x) with
      (match as_non x with None => Ok (eqb x SEps)
       | Some n => let* ps := production_iter g n in out_prods (out f g) false ps end) in *.
    destruct (as_non x) as [n|]; auto. destruct (production_iter g n); simpl in *; auto.
    apply out_prods_mono; auto.
Qed.
Lemma out_mono f f' g x : f <= f' -> out f g x <> Diverge -> out f' g x = out f g x.
Proof.
  induction 1 as [|f' Hle IH]; auto. intros Hd. rewrite out_mono1; auto. rewrite IH; auto.
Qed.
Lemma out_div_down f f' g x : f <= f' -> out f' g x = Diverge -> out f g x = Diverge.
Proof.
  intros Hle H. destruct (out f g x) as [b|p|] eqn:E; auto;
    rewrite (out_mono f f' g x Hle) in H by congruence; congruence.
Qed.

(** ** Divergence is real *)

Lemma out_body_div (r : sym -> res bool) : forall l a, out_body r a l = Diverge ->
  exists pre y post, l = pre ++ y :: post /\ r y = Diverge /\ Forall (fun z => r z = Ok true) pre /\
    forall r', (forall z, r z <> Diverge -> r' z = r z) -> r' y = Diverge -> out_body r' a l = Diverge.
Proof.
  induction l as [|y l IH]; intros a H; simpl in *; [discriminate|].
  destruct (r y) as [[]|p|] eqn:E; simpl in H; try discriminate.
  - destruct (IH _ H) as (pre & z & post & -> & Hz & Hpre & Hr).
    exists (y :: pre), z, post. split; [reflexivity|]. split; [exact Hz|]. split; [constructor; auto|].
    intros r' Hm Hd. rewrite (Hm y) by congruence. rewrite E. simpl. apply Hr; auto.
  - exists [], y, l. split; [reflexivity|]. split; [exact E|]. split; [constructor|].
    intros r' Hm Hd. rewrite Hd. reflexivity.
Qed.

Lemma out_prods_div (r : sym -> res bool) : forall ps a, out_prods r a ps = Diverge ->
  exists i p pre y post, In (i, p) ps /\ p_syms p = pre ++ y :: post /\ r y = Diverge /\
    Forall (fun z => r z = Ok true) pre /\
    forall r', (forall z, r z <> Diverge -> r' z = r z) -> r' y = Diverge -> out_prods r' a ps = Diverge.
Proof.
  induction ps as [|[i p] ps IH]; intros a H; simpl in *; [discriminate|].
  destruct (out_body r a (p_syms p)) as [b|q|] eqn:E; simpl in H; try discriminate.
  - destruct (IH _ H) as (j & q & pre & y & post & Hin & E1 & Hy & Hpre & Hr).
    exists j, q, pre, y, post. split; [right; exact Hin|]. split; [exact E1|]. split; [exact Hy|].
    split; [exact Hpre|]. intros r' Hm Hd.
    rewrite (out_body_mono r r' Hm) by congruence. rewrite E. simpl. apply Hr; auto.
  - destruct (out_body_div _ _ _ E) as (pre & y & post & E1 & Hy & Hpre & Hr).
    exists i, p, pre, y, post. split; [left; reflexivity|]. split; [exact E1|]. split; [exact Hy|].
    split; [exact Hpre|]. intros r' Hm Hd. rewrite Hr; auto.
Qed.

Section Exact.
  Context (g : grammar).

  Definition Div (f : nat) (n : str) : Prop := out f g (SNon n) = Diverge.

  (** One step of the call chain along which the recursion runs out of fuel. *)
  Definition link (f : nat) (n m : str) : Prop :=
    In n (keys (g_names g)) /\ Div f m /\
    (exists ps i p pre post, production_iter g n = Ok ps /\ In (i, p) ps /\
       p_syms p = pre ++ SNon m :: post /\ Forall (fun z => out f g z = Ok true) pre) /\
    forall f', f <= f' -> Div f' m -> Div (S f') n.

  Lemma div_link f n : Div (S f) n -> exists m, link f n m.
  Proof.
    unfold Div. simpl. unfold production_iter.
    destruct (map_get n (g_names g)) as [idxs|] eqn:E; simpl; [|discriminate].
    intros H. destruct (out_prods_div _ _ _ H) as (i & p & pre & y & post & Hin & Ep & Hy & Hpre & Hr).
    assert (exists m, y = SNon m) as [m ->].
    { destruct f; simpl in Hy; destruct y; simpl in Hy; try discriminate; eauto. }
    exists m. split; [apply map_get_Some_key; eauto|]. split; [exact Hy|].
    split; [exists (prod_iter (g_prods g) idxs), i, p, pre, post; unfold production_iter; rewrite E; auto|].
    intros f' Hle Hd. unfold Div. simpl. unfold production_iter. rewrite E. simpl.
    apply Hr; auto. intros z Hz. apply out_mono; auto.
  Qed.

  Inductive dchain : nat -> str -> list str -> Prop :=
  | dc_nil n : dchain 0 n []
  | dc_cons f n m l : link f n m -> dchain f m l -> dchain (S f) n (m :: l).

  Lemma div_chain : forall f n, Div f n -> exists l, dchain f n l /\ length l = f.
  Proof.
    induction f as [|f IH]; intros n H.
    - exists []. split; [constructor|reflexivity].
    - destruct (div_link _ _ H) as [m Hl]. destruct (IH m) as (l & Hc & El); [apply Hl|].
      exists (m :: l). split; [econstructor; eauto|simpl; congruence].
  Qed.

  Lemma chain_keys f n l : dchain f n l -> forall x, In x (firstn f (n :: l)) -> In x (keys (g_names g)).
  Proof.
    induction 1 as [n|f n m l (Hk & _) Hc IH]; intros x Hx; [destruct Hx|].
    destruct Hx as [<-|Hx]; auto.
  Qed.

  Lemma chain_back f n l : dchain f n l -> forall l1 m l2, l = l1 ++ m :: l2 ->
    (Div (f - S (length l1)) m) /\
    forall f', f - S (length l1) <= f' -> Div f' m -> Div (f' + S (length l1)) n.
  Proof.
    induction 1 as [n|f n m l (_ & Hd & _ & Hl) Hc IH]; intros l1 m' l2 E; [destruct l1; discriminate|].
    destruct l1 as [|a l1]; simpl in E; injection E as <- E.
    - subst. simpl. rewrite Nat.sub_0_r. split; [exact Hd|]. intros f' Hle H. rewrite Nat.add_1_r. auto.
    - destruct (IH _ _ _ E) as [H1 H2]. simpl length. split; [exact H1|].
      intros f' Hle H. replace (f' + S (S (length l1))) with (S (f' + S (length l1))) by lia.
      apply Hl; [|apply H2; auto].
      assert (Hlen : length l = f) by (clear -Hc; induction Hc; simpl; congruence).
      rewrite E, app_length in Hlen. simpl in Hlen, Hle. lia.
  Qed.

  Lemma dup_split (l : list str) : ~ NoDup l -> exists a x b c, l = a ++ x :: b ++ x :: c.
  Proof.
    induction l as [|x l IH]; intros H.
    - exfalso. apply H. constructor.
    - destruct (in_dec ord_dec x l) as [Hx|Hx].
      + apply in_split in Hx as (b & c & ->). exists [], x, b, c. reflexivity.
      + destruct IH as (a & y & b & c & ->); [|exists (x :: a), y, b, c; reflexivity].
        intros C. apply H. constructor; auto.
  Qed.

  (** Running out of the model's fuel means that no fuel is enough. *)
  Lemma pump (D : nat -> Prop) (b d : nat) :
    (forall f f', f <= f' -> D f' -> D f) -> D b -> 0 < d -> (forall f, b <= f -> D f -> D (f + d)) ->
    forall f, D f.
  Proof.
    intros Hdown Hb Hd Hstep f.
    assert (G : forall k, D (b + k * d)).
    { induction k as [|k IH]; [rewrite Nat.add_0_r; exact Hb|].
      replace (b + S k * d) with (b + k * d + d) by lia. apply Hstep; [lia|exact IH]. }
    apply (Hdown f (b + f * d)); auto. nia.
  Qed.

  Lemma Div_down n f f' : f <= f' -> Div f' n -> Div f n.
  Proof. apply out_div_down. Qed.

  (** A long chain repeats a name. *)
  Lemma long_chain_repeats n l : dchain (first_fuel g) n l -> length l = first_fuel g ->
    exists l1 x l2 l3, n :: l = l1 ++ x :: l2 ++ x :: l3.
  Proof.
    intros Hc El.
    destruct (dup_split (firstn (first_fuel g) (n :: l))) as (a & x & b & c & E).
    - intros Hnd. pose proof (NoDup_incl_length Hnd (chain_keys _ _ _ Hc)) as Hlen.
      rewrite firstn_length in Hlen. simpl length in Hlen. rewrite El in Hlen.
      unfold keys, first_fuel in *. rewrite map_length in Hlen. lia.
    - exists a, x, b, (c ++ skipn (first_fuel g) (n :: l)).
      rewrite <- (firstn_skipn (first_fuel g) (n :: l)) at 1. rewrite E.
      rewrite <- app_assoc. simpl. rewrite <- app_assoc. reflexivity.
  Qed.

  Lemma dchain_tail f n l : dchain f n l -> forall l1 x l2, l = l1 ++ x :: l2 ->
    dchain (f - S (length l1)) x l2.
  Proof.
    induction 1 as [n|f n m l Hl Hc IH]; intros l1 x l2 E; [destruct l1; discriminate|].
    destruct l1 as [|a l1]; simpl in E; injection E as <- E.
    - subst. simpl. rewrite Nat.sub_0_r. exact Hc.
    - apply IH in E. simpl length. exact E.
  Qed.

  Lemma fuel_exact n : Div (first_fuel g) n -> forall f, Div f n.
  Proof.
    intros H. destruct (div_chain _ _ H) as (l & Hc & El).
    destruct (long_chain_repeats _ _ Hc El) as (l1 & x & l2 & l3 & E).
    destruct l1 as [|a l1]; simpl in E; injection E as <- E.
    - (* the head itself repeats *)
      destruct (chain_back _ _ _ Hc _ _ _ E) as [H1 H2].
      apply (pump (fun f => Div f n) (first_fuel g - S (length l2)) (S (length l2)));
        [intros; eapply Div_down; eauto|exact H1|lia|exact H2].
    - destruct (chain_back _ _ _ Hc _ _ _ E) as [H1 H2].
      pose proof (dchain_tail _ _ _ Hc _ _ _ E) as Hc'.
      destruct (chain_back _ _ _ Hc' l2 x l3 eq_refl) as [H3 H4].
      assert (Hx : forall f, Div f x).
      { apply (pump (fun f => Div f x) (first_fuel g - S (length l1) - S (length l2)) (S (length l2)));
          [intros; eapply Div_down; eauto|exact H3|lia|exact H4]. }
      intros f. apply (Div_down n f (f + first_fuel g + S (length l1))); [lia|].
      apply H2; [lia|apply Hx].
  Qed.
End Exact.

Lemma out_fuel_exact g x : out (first_fuel g) g x = Diverge -> forall f, out f g x = Diverge.
Proof.
  intros H. destruct (as_non x) as [n|] eqn:E.
  - destruct x; try discriminate. injection E as ->. apply fuel_exact, H.
  - unfold first_fuel in H. simpl in H. rewrite E in H. discriminate.
Qed.

Lemma kind_div r : r = Diverge <-> kind r = Diverge.
Proof. destruct r as [[]| |]; simpl; split; congruence. Qed.

(** More fuel keeps results. *)
Lemma first_body_mono r r' : (forall s z, r s z <> Diverge -> r' s z = r s z) ->
  forall l s a, first_body r s a l <> Diverge -> first_body r' s a l = first_body r s a l.
Proof.
  intros H. induction l as [|y l IH]; intros s a Hd; simpl in *; auto.
  destruct (r s y) as [[s' b]|p|] eqn:E; simpl in *; try congruence;
    rewrite (H s y) by congruence; rewrite E; simpl; auto. destruct b; auto.
Qed.
Lemma first_prods_mono r r' : (forall s z, r s z <> Diverge -> r' s z = r s z) ->
  forall l s a, first_prods r s a l <> Diverge -> first_prods r' s a l = first_prods r s a l.
Proof.
  intros H. induction l as [|[i p] l IH]; intros s a Hd; simpl in *; auto.
  destruct (first_body r s a (p_syms p)) as [[s' b]|q|] eqn:E; simpl in *; try congruence;
    rewrite (first_body_mono r r' H) by congruence; rewrite E; simpl; auto.
Qed.
Lemma first_sym_mono1 f g : forall s x, first_sym f g s x <> Diverge -> first_sym (S f) g s x = first_sym f g s x.
Proof.
  induction f as [|f IH]; intros s x Hd.
  - simpl in *. destruct (as_non x); congruence.
  - change (first_sym (S (S f)) g s x) with
      (match as_non x with None => Ok (set_insert x s, eqb x SEps)
       | Some n => let* ps := production_iter g n in first_prods (first_sym (S f) g) s false ps end).
    change (first_sym (S f) g s x) with
      (match as_non x with None => Ok (set_insert x s, eqb x SEps)
       | Some n => let* ps := production_iter g n in first_prods (first_sym f g) s false ps end) in *.
    destruct (as_non x) as [n|]; auto. destruct (production_iter g n); simpl in *; auto.
    apply first_prods_mono; auto.
Qed.
Lemma first_sym_mono f f' g s x : f <= f' -> first_sym f g s x <> Diverge -> first_sym f' g s x = first_sym f g s x.
Proof.
  induction 1 as [|f' Hle IH]; auto. intros Hd. rewrite first_sym_mono1; auto. rewrite IH; auto.
Qed.

Lemma first_sym_exact g s x : first_sym (first_fuel g) g s x = Diverge ->
  forall f, first_sym f g s x = Diverge.
Proof.
  intros H f. apply kind_div. rewrite kind_first. apply out_fuel_exact.
  rewrite <- (kind_first _ g s). apply kind_div, H.
Qed.

(** Beyond the model's fuel nothing changes. *)
Lemma first_sym_big g f s x : first_fuel g <= f -> first_sym f g s x = first_sym (first_fuel g) g s x.
Proof.
  intros Hle. destruct (first_sym (first_fuel g) g s x) as [y|p|] eqn:E.
  - rewrite <- E. apply first_sym_mono; congruence.
  - rewrite <- E. apply first_sym_mono; congruence.
  - apply first_sym_exact, E.
Qed.

Lemma first_loop_big g f : first_fuel g <= f -> forall l s b,
  first_loop f g s b l = first_loop (first_fuel g) g s b l.
Proof.
  intros Hle. induction l as [|x l IH]; intros s b; cbn [first_loop]; [reflexivity|].
  rewrite (first_sym_big g f) by exact Hle.
  destruct (first_sym (first_fuel g) g s x) as [[s' b']| |]; cbn [bind]; auto.
  destruct (set_mem SEps s'); auto.
Qed.

Lemma first_loop_mono g f f' : f <= f' -> forall l s b, first_loop f g s b l <> Diverge ->
  first_loop f' g s b l = first_loop f g s b l.
Proof.
  intros Hle. induction l as [|x l IH]; intros s b Hd; cbn [first_loop] in *; [reflexivity|].
  destruct (first_sym f g s x) as [[s' b']|p|] eqn:E; cbn [bind] in *; try congruence;
    rewrite (first_sym_mono f f') by (auto; congruence); rewrite E; cbn [bind]; auto.
  destruct (set_mem SEps s'); auto.
Qed.

Lemma first_exact g l f : first_fuel g <= f -> first_with f g l = first g l.
Proof. intros Hle. unfold first, first_with. rewrite first_loop_big by exact Hle. reflexivity. Qed.

Lemma first_div_all g l : first g l = Diverge -> forall f, first_with f g l = Diverge.
Proof.
  intros H f. destruct (Nat.le_gt_cases (first_fuel g) f) as [Hle|Hlt].
  - rewrite first_exact; auto.
  - unfold first, first_with in *.
    assert (H' : first_loop (first_fuel g) g [] true l = Diverge)
      by (destruct (first_loop (first_fuel g) g [] true l) as [[]| |]; simpl in H; congruence).
    destruct (first_loop f g [] true l) as [[s b]|p|] eqn:E; auto.
    + rewrite (first_loop_mono g f (first_fuel g)) in H' by (try lia; congruence). congruence.
    + rewrite (first_loop_mono g f (first_fuel g)) in H' by (try lia; congruence). congruence.
Qed.

(** ** Correctness on epsilon-free grammars *)

Section EpsFree.
  Context (g : grammar) (start : str) (W : wf_grammar g start) (He : eps_free g).

  Lemma iter_rule n ps i p : production_iter g n = Ok ps -> In (i, p) ps -> rule g n (p_syms p).
  Proof using W.
    intros E Hin. destruct (production_iter_ok _ _ W _ _ E) as (_ & _ & H).
    apply H in Hin as [Hp Hn]. exists p. eauto using nth_error_In.
  Qed.
  Lemma rule_iter n ps b : production_iter g n = Ok ps -> rule g n b -> exists i p, In (i, p) ps /\ p_syms p = b.
  Proof using W.
    intros E (p & Hp & Hn & Hb). destruct (production_iter_ok _ _ W _ _ E) as (_ & _ & H).
    apply In_nth_error in Hp as [i Hi]. exists i, p. split; [apply H; auto|exact Hb].
  Qed.

  Lemma out_false f x b : x <> SEps -> out f g x = Ok b -> b = false.
  Proof using W He.
    revert x b. induction f as [|f IH]; intros x b Hx H; simpl in H.
    - destruct (as_non x); [discriminate|]. injection H as <-. apply eqb_neq, Hx.
    - destruct (as_non x) as [n|]; [|injection H as <-; apply eqb_neq, Hx].
      apply bind_ok in H as (ps & Eps & H).
      assert (Hps : forall i p, In (i, p) ps -> p_syms p <> [] /\ ~ In SEps (p_syms p)).
      { intros i p Hin. destruct (production_iter_ok _ _ W _ _ Eps) as (_ & _ & Hi).
        apply Hi in Hin as [Hp _]. eauto using nth_error_In. }
      clear Eps. revert Hps H. induction ps as [|[i p] ps IHps]; intros Hps H; simpl in H; [congruence|].
      apply bind_ok in H as (a & Ea & H). apply IHps; [intros; eapply Hps; right; eauto|].
      destruct (Hps i p (or_introl eq_refl)) as [Hne Hni].
      destruct (p_syms p) as [|y l]; [tauto|]. simpl in Ea. apply bind_ok in Ea as (b' & Eb & Ea).
      assert (b' = false) as -> by (eapply IH; [|exact Eb]; intros ->; apply Hni; left; reflexivity).
      injection Ea as <-. exact H.
  Qed.

  Lemma first_sym_false f s x s' b : x <> SEps -> first_sym f g s x = Ok (s', b) -> b = false.
  Proof using W He.
    intros Hx H. eapply out_false; [exact Hx|]. rewrite <- (kind_first f g s x), H. reflexivity.
  Qed.

  Lemma first_sym_spec f : forall x s s' b, x <> SEps -> ssorted s -> first_sym f g s x = Ok (s', b) ->
    ssorted s' /\ forall y, In y s' <-> In y s \/ (lms g x y /\ terminal y).
  Proof using W He.
    induction f as [|f IH]; intros x s s' b Hx Hs H; simpl in H.
    - destruct (as_non x) as [n|] eqn:En; [discriminate|]. injection H as <- _.
      split; [apply set_insert_sorted, Hs|]. intros y. rewrite set_insert_In. split.
      + intros [-> |Hy]; auto. right. split; [constructor|]. intros m ->. discriminate.
      + intros [Hy|[Hl _]]; auto. inversion Hl; subst; auto. discriminate.
    - destruct (as_non x) as [n|] eqn:En.
      + destruct x; try discriminate. injection En as ->.
        apply bind_ok in H as (ps & Eps & H).
        assert (Hps : forall i p, In (i, p) ps -> p_syms p <> [] /\ ~ In SEps (p_syms p)).
        { intros i p Hin. destruct (production_iter_ok _ _ W _ _ Eps) as (_ & _ & Hi).
          apply Hi in Hin as [Hp _]. eauto using nth_error_In. }
        assert (G : forall ps s a s' b, (forall i p, In (i, p) ps -> p_syms p <> [] /\ ~ In SEps (p_syms p)) ->
                  ssorted s -> first_prods (first_sym f g) s a ps = Ok (s', b) ->
                  ssorted s' /\ forall y, In y s' <-> In y s \/
                    (exists i p z l, In (i, p) ps /\ p_syms p = z :: l /\ lms g z y /\ terminal y)).
        { clear -IH W He. induction ps as [|[i p] ps IHps]; intros s a s' b Hps Hs H; simpl in H.
          - injection H as <- _. split; auto. intros y. split; auto.
            intros [Hy|(i & p & z & l & [] & _)]; auto.
          - apply bind_ok in H as ([s1 a1] & E1 & H).
            destruct (Hps i p (or_introl eq_refl)) as [Hne Hni].
            destruct (p_syms p) as [|z l] eqn:Ep; [tauto|]. simpl in E1.
            apply bind_ok in E1 as ([s2 b2] & E2 & E1).
            assert (Hz : z <> SEps) by (intros ->; apply Hni; left; reflexivity).
            rewrite (first_sym_false _ _ _ _ _ Hz E2) in E1. injection E1 as <- <-.
            destruct (IH _ _ _ _ Hz Hs E2) as [Hs2 H2].
            destruct (IHps _ _ _ _ (fun i p H => Hps i p (or_intror H)) Hs2 H) as [Hs' H'].
            split; auto. intros y. rewrite H', H2. split.
            + intros [[Hy|[Hl Ht]]|(j & q & z' & l' & Hin & Hq & Hl & Ht)]; auto.
              * right. exists i, p, z, l. split; [left; reflexivity|]. auto.
              * right. exists j, q, z', l'. split; [right; exact Hin|]. auto.
            + intros [Hy|(j & q & z' & l' & [Hin|Hin] & Hq & Hl & Ht)]; auto.
              * injection Hin as <- <-. rewrite Ep in Hq. injection Hq as <- <-. auto.
              * right. exists j, q, z', l'. auto. }
        destruct (G _ _ _ _ _ Hps Hs H) as [Hs' H']. split; auto. intros y. rewrite H'.
        split; (intros [Hy|Hy]; [auto|right]).
        * destruct Hy as (i & p & z & l & Hin & Hp & Hl & Ht). split; [|exact Ht].
          eapply lms_step; [|exact Hl]. rewrite <- Hp. eapply iter_rule; eauto.
        * destruct Hy as [Hl Ht]. inversion Hl as [|A z l y' R Hl']; subst; [exfalso; eapply Ht; reflexivity|].
          destruct (rule_iter _ _ _ Eps R) as (i & p & Hin & Hp). exists i, p, z, l. auto.
      + injection H as <- _.
        split; [apply set_insert_sorted, Hs|]. intros y. rewrite set_insert_In. split.
        * intros [-> |Hy]; auto. right. split; [constructor|]. intros m ->. discriminate.
        * intros [Hy|[Hl _]]; auto. inversion Hl; subst; auto. discriminate.
  Qed.

  Lemma lms_not_eps x : x <> SEps -> lms g x SEps -> False.
  Proof using He.
    intros Hx H. remember SEps as e eqn:Ee. revert Hx. induction H as [x|A y b z R Hl IH]; intros Hx; [congruence|].
    apply IH; auto. intros ->. destruct R as (p & Hp & _ & Eb). destruct (He p Hp) as [_ Hn].
    apply Hn. rewrite Eb. left. exact Ee.
  Qed.

  (** The set of an epsilon-free symbol string is that of its first symbol. *)
  Lemma first_cons x l : x <> SEps -> first g (x :: l) =
    let* (s, _) := first_sym (first_fuel g) g [] x in Ok s.
  Proof using W He.
    intros Hx. unfold first, first_with. cbn [first_loop].
    destruct (first_sym (first_fuel g) g [] x) as [[s b]| |] eqn:E; simpl; auto.
    destruct (first_sym_spec _ _ [] _ _ Hx I E) as [Hs H].
    assert (Hn : ~ In SEps s).
    { rewrite H. intros [[]|[Hl _]]. exact (lms_not_eps _ Hx Hl). }
    rewrite (proj2 (set_mem_false SEps s) Hn). simpl. f_equal.
    unfold set_remove. clear -Hn. induction s as [|y s IH]; simpl; auto.
    assert (eqb SEps y = false) as -> by (apply eqb_neq; intros <-; apply Hn; left; reflexivity).
    simpl. f_equal. apply IH. intros C; apply Hn; right; exact C.
  Qed.

  Lemma first_nil : first g [] = Ok [SEps].
  Proof. reflexivity. Qed.

  Lemma first_spec x l s : x <> SEps -> first g (x :: l) = Ok s ->
    ssorted s /\ forall y, In y s <-> lms g x y /\ terminal y.
  Proof using W He.
    intros Hx H. rewrite first_cons in H by exact Hx. apply bind_ok in H as ([s' b] & E & H).
    injection H as <-. destruct (first_sym_spec _ _ [] _ _ Hx I E) as [Hs H].
    split; auto. intros y. rewrite H. simpl. tauto.
  Qed.

  (** In terms of derivations. *)
  Lemma lms_derives_iff x l y : terminal y -> lms g x y <-> exists b, derives g (x :: l) (y :: b).
  Proof using He.
    intros Ht. split.
    - intros H. apply lms_derives in H as [b Hb]. exists (b ++ l).
      exact (derives_ctx g [] [x] (y :: b) l Hb).
    - intros [b Hb]. eapply derives_cons_head; eauto.
  Qed.

  (** ** When it ends *)

  Lemma out_head f A y b : rule g A (y :: b) -> is_ok (out (S f) g (SNon A)) = true -> is_ok (out f g y) = true.
  Proof using W He.
    intros R H. simpl in H. destruct (production_iter g A) as [ps| |] eqn:E; try discriminate.
    simpl in H. destruct (rule_iter _ _ _ E R) as (i & p & Hin & Hp).
    revert H. generalize false. clear E. induction ps as [|[j q] ps IH]; intros a H; [destruct Hin|].
    simpl in H. destruct Hin as [E|Hin].
    - injection E as -> ->. rewrite Hp in H. simpl in H.
      destruct (out f g y) as [b'| |]; simpl in *; auto.
    - destruct (out_body (out f g) a (p_syms q)); simpl in H; try discriminate. eapply IH; eauto.
  Qed.

  Lemma out_lms x y : lms g x y -> forall f, is_ok (out f g x) = true -> exists f', f' <= f /\ is_ok (out f' g y) = true.
  Proof using W He.
    induction 1 as [x|A y b z R Hl IH]; intros f H; [eauto|].
    destruct f as [|f]; [simpl in H; discriminate|].
    pose proof (out_head _ _ _ _ R H) as H'. destruct (IH _ H') as (f' & Hle & Hf). exists f'. split; [lia|exact Hf].
  Qed.

  Lemma derives1_single A b : derives1 g [SNon A] b -> rule g A b.
  Proof.
    intros H. inversion H as [a B c d R E1 E2]; subst.
    destruct a as [|a0 a]; simpl in E1.
    - injection E1 as -> ->. rewrite app_nil_r. exact R.
    - injection E1 as _ E1. destruct a; discriminate.
  Qed.

  Lemma left_recursive_lms A : left_recursive g A <-> exists y b, rule g A (y :: b) /\ lms g y (SNon A).
  Proof using He.
    split.
    - intros (b & c & H1 & H2). apply derives1_single in H1. destruct b as [|y b].
      + exfalso. destruct H1 as (p & Hp & _ & Eb). apply He in Hp. tauto.
      + exists y, b. split; [exact H1|]. eapply derives_cons_head; eauto.
    - intros (y & b & R & Hl). apply lms_derives in Hl as [c Hc]. exists (y :: b), (c ++ b).
      split; [apply derives_rule, R|]. exact (derives_ctx g [] [y] (SNon A :: c) b Hc).
  Qed.

  (** A left-recursive name in leftmost position never gets a result. *)
  Lemma left_recursive_not_ok x A : lms g x (SNon A) -> left_recursive g A ->
    forall f, is_ok (out f g x) = false.
  Proof using W He.
    intros Hl HA f. destruct (is_ok (out f g x)) eqn:E; auto. exfalso.
    destruct (out_lms _ _ Hl _ E) as (f' & _ & Hf). clear E.
    apply left_recursive_lms in HA as (y & b & R & Hy).
    induction f' as [f' IH] using lt_wf_ind. destruct f' as [|f']; [discriminate|].
    pose proof (out_head _ _ _ _ R Hf) as H1. destruct (out_lms _ _ Hy _ H1) as (f2 & Hle & H2).
    eapply (IH f2); [lia|exact H2].
  Qed.

  Lemma dchain_lms f n l : dchain g f n l -> forall l1 m l2, l = l1 ++ m :: l2 ->
    exists y b, rule g n (y :: b) /\ lms g y (SNon m).
  Proof using W He.
    induction 1 as [n|f n m l (_ & _ & (ps & i & p & pre & post & Eps & Hin & Ep & Hpre) & _) Hc IH];
      intros l1 x l2 E; [destruct l1; discriminate|].
    assert (R : rule g n (SNon m :: post)).
    { pose proof (iter_rule _ _ _ _ Eps Hin) as R. rewrite Ep in R.
      destruct pre as [|z pre]; [exact R|]. exfalso.
      inversion Hpre as [|z' pre' Hz _ Ez]; subst.
      assert (z <> SEps).
      { intros ->. destruct R as (q & Hq & _ & Eq). apply He in Hq as [_ Hq]. apply Hq.
        rewrite Eq. left; reflexivity. }
      apply out_false in Hz; auto. discriminate. }
    destruct l1 as [|a l1]; simpl in E; injection E as <- E.
    - exists (SNon m), post. split; [exact R|constructor].
    - destruct (IH _ _ _ E) as (y & b & R' & Hl). exists (SNon m), post. split; [exact R|].
      eapply lms_step; eauto.
  Qed.

  Lemma div_left_recursive n : Div g (first_fuel g) n -> exists A, lms g (SNon n) (SNon A) /\ left_recursive g A.
  Proof using W He.
    intros H. destruct (div_chain _ _ _ H) as (l & Hc & El).
    destruct (long_chain_repeats _ _ _ Hc El) as (l1 & x & l2 & l3 & E). exists x.
    rewrite left_recursive_lms.
    destruct l1 as [|a l1]; simpl in E; injection E as <- E.
    - split; [constructor|]. eapply dchain_lms; eauto.
    - split.
      + destruct (dchain_lms _ _ _ Hc _ _ _ E) as (y & b & R & Hl). eapply lms_step; eauto.
      + eapply dchain_lms; [eapply dchain_tail; eauto|reflexivity].
  Qed.

  (** With every non-terminal defined there is no panic. *)
  Lemma out_no_panic : defined g -> forall f x, (forall n, x = SNon n -> exists q, In q (g_prods g) /\ p_name q = n) ->
    forall p, out f g x <> Panic p.
  Proof using W.
    intros Hd. induction f as [|f IH]; intros x Hx p; simpl; destruct (as_non x) as [n|] eqn:En; try discriminate.
    destruct x; try discriminate. injection En as ->.
    destruct (proj1 (production_iter_defined _ _ W n) (Hx _ eq_refl)) as [ps Eps]. rewrite Eps. simpl.
    assert (Hps : forall i q, In (i, q) ps -> In q (g_prods g)).
    { intros i q Hin. destruct (production_iter_ok _ _ W _ _ Eps) as (_ & _ & Hi).
      apply Hi in Hin as [Hq _]. eauto using nth_error_In. }
    assert (Hb : forall l a, (forall m, In (SNon m) l -> exists q, In q (g_prods g) /\ p_name q = m) ->
               out_body (out f g) a l <> Panic p).
    { induction l as [|y l IHl]; intros a Hl; simpl; [discriminate|].
      pose proof (IH y (fun m E => Hl m (or_introl E)) p) as Hy.
      destruct (out f g y) as [[]|q|]; simpl; try discriminate; [|congruence].
      apply IHl. intros m Hm. apply Hl. right; exact Hm. }
    clear Eps. generalize false. induction ps as [|[i q] ps IHps]; intros a; simpl; [discriminate|].
    pose proof (Hb (p_syms q) a (fun m Hm => Hd q m (Hps i q (or_introl eq_refl)) Hm)) as Hq.
    destruct (out_body (out f g) a (p_syms q)) as [a'|q'|]; simpl; try discriminate; [|congruence].
    apply IHps. intros j r Hr. eapply Hps. right; exact Hr.
  Qed.

  (** When the recursion on a symbol string returns. *)
  Lemma first_returns_iff x l : x <> SEps -> defined g ->
    (forall n, x = SNon n -> exists q, In q (g_prods g) /\ p_name q = n) ->
    (exists s, first g (x :: l) = Ok s) <-> ~ exists A, lms g x (SNon A) /\ left_recursive g A.
  Proof using W He.
    intros Hx Hd Hn.
    assert (E : (exists s, first g (x :: l) = Ok s) <-> is_ok (out (first_fuel g) g x) = true).
    { rewrite first_cons by exact Hx. rewrite <- (first_sym_ok_out (first_fuel g) g [] x).
      destruct (first_sym (first_fuel g) g [] x) as [[s b]| |]; simpl; split; eauto; try discriminate;
        intros [s' Es]; discriminate. }
    rewrite E. split.
    - intros H (A & Hl & HA). rewrite (left_recursive_not_ok _ _ Hl HA) in H. discriminate.
    - intros H. destruct (out (first_fuel g) g x) as [b|p|] eqn:Eo; auto.
      + exfalso. eapply out_no_panic; eauto.
      + exfalso. apply H. destruct (as_non x) as [n|] eqn:En.
        * destruct x; try discriminate. injection En as ->. apply div_left_recursive, Eo.
        * unfold first_fuel in Eo. simpl in Eo. rewrite En in Eo. discriminate.
  Qed.

  (** A panic comes from an undefined non-terminal in leftmost position. *)
  Lemma out_panic f : forall x p, x <> SEps -> out f g x = Panic p ->
    exists n, lms g x (SNon n) /\ ~ has_rule g n.
  Proof using W He.
    induction f as [|f IH]; intros x p Hx H; simpl in H; destruct (as_non x) as [n|] eqn:En; try discriminate.
    destruct x as [|m| | |]; try discriminate. injection En as ->.
    destruct (production_iter g n) as [ps|q|] eqn:Eps; simpl in H.
    - assert (Hps : forall i q, In (i, q) ps -> rule g n (p_syms q) /\ p_syms q <> [] /\ ~ In SEps (p_syms q)).
      { intros i q Hin. pose proof (iter_rule _ _ _ _ Eps Hin) as R. split; auto.
        destruct R as (q' & Hq & _ & <-). apply He, Hq. }
      clear Eps. revert H. generalize false. induction ps as [|[i q] ps IHps]; intros a H; simpl in H; [discriminate|].
      destruct (Hps i q (or_introl eq_refl)) as (R & Hne & Hn).
      destruct (out_body (out f g) a (p_syms q)) as [a'|q'|] eqn:Eb; simpl in H; try discriminate.
      + eapply IHps; [|exact H]. intros j r Hr. eapply Hps. right; exact Hr.
      + destruct (p_syms q) as [|y l] eqn:Eq; [tauto|]. simpl in Eb.
        assert (Hy : y <> SEps) by (intros ->; apply Hn; left; reflexivity).
        destruct (out f g y) as [b|q''|] eqn:Ey; simpl in Eb; try discriminate.
        * rewrite (out_false _ _ _ Hy Ey) in Eb. discriminate.
        * destruct (IH _ _ Hy Ey) as (n' & Hl & Hr). exists n'. split; auto. eapply lms_step; eauto.
    - exists n. split; [constructor|]. intros C. apply (production_iter_defined _ _ W) in C as [ps E]. congruence.
    - discriminate.
  Qed.

  Lemma first_ok_out x l : x <> SEps -> (exists s, first g (x :: l) = Ok s) <-> is_ok (out (first_fuel g) g x) = true.
  Proof using W He.
    intros Hx. rewrite first_cons by exact Hx. rewrite <- (first_sym_ok_out (first_fuel g) g [] x).
    destruct (first_sym (first_fuel g) g [] x) as [[s b]| |]; simpl; split; eauto; try discriminate;
      intros [s' Es]; discriminate.
  Qed.

  (** Exactly when the computation returns. *)
  Lemma first_returns_exact x l : x <> SEps ->
    (exists s, first g (x :: l) = Ok s) <->
    forall A, lms g x (SNon A) -> has_rule g A /\ ~ left_recursive g A.
  Proof using W He.
    intros Hx. rewrite (first_ok_out _ _ Hx). split.
    - intros H A Hl. split.
      + destruct (out_lms _ _ Hl _ H) as (f' & _ & Hf). destruct f' as [|f']; [discriminate|]. simpl in Hf.
        apply (production_iter_defined _ _ W). destruct (production_iter g A); try discriminate. eauto.
      + intros HA. rewrite (left_recursive_not_ok _ _ Hl HA) in H. discriminate.
    - intros H. destruct (out (first_fuel g) g x) as [b|p|] eqn:Eo; auto; exfalso.
      + destruct (out_panic _ _ _ Hx Eo) as (n & Hl & Hn). apply Hn, H, Hl.
      + destruct (as_non x) as [n|] eqn:En.
        * destruct x; try discriminate. injection En as ->.
          destruct (div_left_recursive _ Eo) as (A & Hl & HA). apply (H A Hl), HA.
        * unfold first_fuel in Eo. simpl in Eo. rewrite En in Eo. discriminate.
  Qed.

  (** A result is never empty. *)
  Lemma out_terminal f : forall x, x <> SEps -> is_ok (out f g x) = true -> exists y, lms g x y /\ terminal y.
  Proof using W He.
    induction f as [|f IH]; intros x Hx H; simpl in H; destruct (as_non x) as [n|] eqn:En; try discriminate.
    - exists x. split; [constructor|]. intros m ->. discriminate.
    - destruct x as [|m| | |]; try discriminate. injection En as ->.
      destruct (production_iter g n) as [ps| |] eqn:Eps; try discriminate.
      destruct (production_iter_ok _ _ W _ _ Eps) as (Hne & _ & _). destruct ps as [|[i p] ps]; [tauto|].
      pose proof (iter_rule _ _ _ _ Eps (or_introl eq_refl)) as R.
      destruct (p_syms p) as [|y b] eqn:Ep.
      { destruct R as (q & Hq & _ & Eq). destruct (He q Hq) as [C _]. congruence. }
      assert (Hy : y <> SEps).
      { intros ->. destruct R as (q & Hq & _ & Eq). destruct (He q Hq) as [_ C]. apply C. rewrite Eq. left; reflexivity. }
      assert (Hok : is_ok (out (S f) g (SNon n)) = true) by (simpl; rewrite Eps; exact H).
      destruct (IH y Hy (out_head _ _ _ _ R Hok)) as (z & Hz & Ht). exists z. split; auto. eapply lms_step; eauto.
    - exists x. split; [constructor|]. intros m ->. discriminate.
  Qed.

  Lemma first_nonempty x l s : x <> SEps -> first g (x :: l) = Ok s -> exists y, In y s.
  Proof using W He.
    intros Hx H. destruct (out_terminal (first_fuel g) x Hx) as (y & Hy).
    - apply (first_ok_out x l Hx). eauto.
    - exists y. apply (first_spec _ _ _ Hx H). exact Hy.
  Qed.
End EpsFree.
