(** Byte slices of texts. *)
From Verif Require Import Base Regex Dfa Lex LexSpec LexNfa LexProofs Utf8Spec.

Lemma utf8_length c : length (utf8 c) = utf8_len1 c.
Proof. unfold utf8, utf8_len1. destruct (c <? 128)%N, (c <? 2048)%N, (c <? 65536)%N; reflexivity. Qed.
Lemma utf8_head c : exists b r, utf8 c = b :: r /\ ~ (128 <= b < 192)%N /\ Forall (fun x => 128 <= x < 192)%N r.
Proof.
  assert (M : forall x, (x mod 64 < 64)%N) by (intros; apply N.mod_lt; discriminate).
  pose proof (M c) as M1. pose proof (M (c / 64)%N) as M2. pose proof (M (c / 4096)%N) as M3.
  pose proof (N.le_0_l (c mod 64)) as Z1. pose proof (N.le_0_l (c / 64 mod 64)) as Z2. pose proof (N.le_0_l (c / 4096 mod 64)) as Z3.
  pose proof (N.le_0_l (c / 64)) as Z4. pose proof (N.le_0_l (c / 4096)) as Z5. pose proof (N.le_0_l (c / 262144)) as Z6.
  unfold utf8. destruct (N.ltb_spec c 128); [|destruct (N.ltb_spec c 2048); [|destruct (N.ltb_spec c 65536)]];
    (do 2 eexists; split; [reflexivity|split; [lia|repeat (apply Forall_cons; [lia|]); apply Forall_nil]]).
Qed.
Lemma bytes_app a b : bytes (a ++ b) = bytes a ++ bytes b.
Proof. apply flat_map_app. Qed.

Lemma boundary_cons c s k : boundary (c :: s) (k + length (utf8 c)) <-> boundary s k.
Proof.
  unfold boundary. cbn [bytes flat_map]. fold (bytes s). rewrite app_length, nth_error_app2 by lia.
  replace (k + length (utf8 c) - length (utf8 c)) with k by lia. split; (intros [E|E]; [left; lia|right; exact E]).
Qed.

(** Cutting at a byte offset: possible exactly at a boundary. *)
Lemma split_byte_spec s : forall k,
  match split_byte s k with
  | Some (a, b) => s = a ++ b /\ length (bytes a) = k
  | None => ~ boundary s k
  end.
Proof.
  induction s as [|c s IH]; intros [|k].
  - split; reflexivity.
  - cbn. intros [E|(b & E & _)]; discriminate.
  - split; reflexivity.
  - cbn [split_byte]. destruct (Nat.leb_spec (utf8_len1 c) (S k)) as [Hle|Hlt].
    + specialize (IH (S k - utf8_len1 c)). destruct (split_byte s (S k - utf8_len1 c)) as [[a b]|].
      * destruct IH as [-> E]. split; auto. cbn [bytes flat_map]. fold (bytes a). rewrite app_length, E, utf8_length. lia.
      * intros H. apply IH. apply (boundary_cons c). rewrite utf8_length. replace (S k - utf8_len1 c + utf8_len1 c) with (S k) by lia. exact H.
    + destruct (utf8_head c) as (b & r & E & _ & Hr). rewrite <- utf8_length, E in Hlt. cbn [length] in Hlt.
      intros [H|(x & H & Hx)].
      * cbn [bytes flat_map] in H. rewrite app_length, E in H. cbn [length] in H. lia.
      * cbn [bytes flat_map] in H. rewrite E in H. cbn [app nth_error] in H. rewrite nth_error_app1 in H by lia.
        apply Hx. rewrite Forall_forall in Hr. apply Hr. eapply nth_error_In; eauto.
Qed.
Lemma split_boundary a b : boundary (a ++ b) (length (bytes a)).
Proof.
  unfold boundary. rewrite bytes_app, app_length, nth_error_app2, Nat.sub_diag by lia. destruct b as [|c b].
  - left. cbn. lia.
  - right. cbn [bytes flat_map]. destruct (utf8_head c) as (x & r & -> & Hx & _). exists x. auto.
Qed.

(** [&s[p..q]] *)
Lemma byte_slice_spec s p q : p <= q ->
  (boundary s p /\ boundary s q /\ exists v, byte_slice s p q = Ok v /\ cut s p q v) \/
  (~ (boundary s p /\ boundary s q) /\ byte_slice s p q = Panic PSlice).
Proof.
  intros Hle. unfold byte_slice. destruct (Nat.ltb_spec q p); [lia|]. pose proof (split_byte_spec s p) as H1.
  destruct (split_byte s p) as [[a r]|]; [|right; split; [tauto|reflexivity]]. destruct H1 as [-> E1].
  pose proof (split_byte_spec r (q - p)) as H2. destruct (split_byte r (q - p)) as [[v b]|].
  - destruct H2 as [-> E2]. left. split; [rewrite <- E1; apply split_boundary|]. split.
    + replace q with (length (bytes (a ++ v))) by (rewrite bytes_app, app_length; lia). rewrite app_assoc. apply split_boundary.
    + exists v. split; auto. unfold cut. rewrite !bytes_app, skipn_app, skipn_all2, E1, Nat.sub_diag by lia. cbn [app skipn].
      rewrite firstn_app, firstn_all2, E2, Nat.sub_diag by lia. cbn [firstn]. rewrite app_nil_r. reflexivity.
  - right. split; auto. intros [_ Hq]. apply H2. revert Hq. unfold boundary. rewrite bytes_app, app_length, nth_error_app2, E1 by lia.
    intros [E|E]; [left; lia|right; exact E].
Qed.

(** A text is given by its bytes. *)
Lemma cons_inj {A} (a b : A) x y : a :: x = b :: y -> a = b /\ x = y.
Proof. intros H. injection H. auto. Qed.
Lemma utf8_app_inj c d x y : utf8 c ++ x = utf8 d ++ y -> c = d /\ x = y.
Proof.
  assert (D : forall n, (n = 64 * (n / 64) + n mod 64)%N) by (intros; apply N.div_mod; discriminate).
  assert (M : forall x, (x mod 64 < 64)%N) by (intros; apply N.mod_lt; discriminate).
  assert (B : forall n m k, (n < m * k -> k <> 0 -> n / k < m)%N) by (intros; apply N.div_lt_upper_bound; lia).
  assert (F1 : forall n, (n / 4096 = n / 64 / 64)%N) by (intros; rewrite N.div_div by discriminate; reflexivity).
  assert (F2 : forall n, (n / 262144 = n / 4096 / 64)%N) by (intros; rewrite N.div_div by discriminate; reflexivity).
  assert (E1 : forall n m, (n / 64 = m / 64 -> n mod 64 = m mod 64 -> n = m)%N) by (intros n m H1 H2; rewrite (D n), (D m), H1, H2; reflexivity).
  assert (E2 : forall n m, (n / 4096 = m / 4096 -> n / 64 mod 64 = m / 64 mod 64 -> n / 64 = m / 64)%N).
  { intros n m H1 H2. apply E1; auto. rewrite <- !F1. exact H1. }
  assert (E3 : forall n m, (n / 262144 = m / 262144 -> n / 4096 mod 64 = m / 4096 mod 64 -> n / 4096 = m / 4096)%N).
  { intros n m H1 H2. apply E1; auto. rewrite <- !F2. exact H1. }
  assert (L2 : forall n, (n < 2048 -> n / 64 < 32)%N) by (intros; apply B; lia).
  assert (L3 : forall n, (n < 65536 -> n / 4096 < 16)%N) by (intros; apply B; lia).
  assert (P : forall n k, (0 <= n / k)%N) by (intros; apply N.le_0_l).
  pose proof (P c 64%N). pose proof (P c 4096%N). pose proof (P c 262144%N). pose proof (P d 64%N). pose proof (P d 4096%N). pose proof (P d 262144%N).
  unfold utf8. intros Hx.
  destruct (N.ltb_spec c 128); [|destruct (N.ltb_spec c 2048) as [C2|]; [apply L2 in C2|destruct (N.ltb_spec c 65536) as [C3|]; [apply L3 in C3|]]];
  (destruct (N.ltb_spec d 128); [|destruct (N.ltb_spec d 2048) as [D2|]; [apply L2 in D2|destruct (N.ltb_spec d 65536) as [D3|]; [apply L3 in D3|]]]);
  cbn [app] in Hx; repeat match type of Hx with _ :: _ = _ :: _ => apply cons_inj in Hx as [? Hx] end; try (exfalso; lia); (split; [|assumption]); auto.
  - apply E1; lia.
  - apply E1; [apply E2|]; lia.
  - apply E1; [apply E2; [apply E3|]|]; lia.
Qed.
Lemma bytes_inj : forall v w, bytes v = bytes w -> v = w.
Proof.
  induction v as [|c v IH]; intros [|d w] H; auto.
  - exfalso. cbn [bytes flat_map] in H. destruct (utf8_head d) as (b & r & E & _). rewrite E in H. discriminate.
  - exfalso. cbn [bytes flat_map] in H. destruct (utf8_head c) as (b & r & E & _). rewrite E in H. discriminate.
  - cbn [bytes flat_map] in H. apply utf8_app_inj in H as [-> H]. f_equal. auto.
Qed.
Lemma cut_inj s p q v w : cut s p q v -> cut s p q w -> v = w.
Proof. unfold cut. intros H1 H2. apply bytes_inj. congruence. Qed.

Lemma bytes_ascii s : ascii s -> bytes s = s.
Proof.
  induction 1 as [|c s Hc _ IH]; auto. cbn [bytes flat_map]. fold (bytes s). rewrite IH. unfold utf8.
  destruct (N.ltb_spec c 128); [reflexivity|lia].
Qed.
(** Up to the first character that is not ASCII, characters and bytes are the same. *)
Lemma cut_ascii a u b : ascii (a ++ u) -> boundary (a ++ u ++ b) (length a) /\ boundary (a ++ u ++ b) (length a + length u) /\
  cut (a ++ u ++ b) (length a) (length a + length u) u.
Proof.
  intros H. pose proof (proj1 (proj1 (Forall_app _ _ _) H)) as Ha. pose proof (bytes_ascii _ H) as E. pose proof (bytes_ascii _ Ha) as Ea.
  split; [rewrite <- Ea at 2; apply split_boundary|]. split.
  - rewrite <- app_length, <- E at 1. rewrite app_assoc. apply split_boundary.
  - unfold cut. rewrite app_assoc, bytes_app, E, <- app_assoc, skipn_app, skipn_all2, Nat.sub_diag by lia. cbn [app skipn].
    replace (length a + length u - length a) with (length u) by lia. rewrite firstn_app, firstn_all2, Nat.sub_diag by lia. cbn [firstn].
    rewrite app_nil_r. apply bytes_ascii. apply Forall_app in H. apply H.
Qed.

Lemma ascii_sliced s ts r : ascii s -> Layout 0 s ts r -> sliced s ts.
Proof.
  intros Ha HL p u Hx. destruct (layout_pos _ _ _ _ HL p u Hx) as (a & b & -> & -> & _). cbn [plus].
  assert (H : ascii (a ++ u)) by (rewrite app_assoc in Ha; apply Forall_app in Ha; apply Ha).
  destruct (cut_ascii a u b H) as (H1 & H2 & _). auto.
Qed.

(** The tokens the caller gets. *)
Definition sliced_as (tokens : list (token_def * hir)) (s : list N) (x : nat * nat * list N) (t : token) : Prop :=
  let '(p, i, u) := x in
  exists td h, nth_error tokens i = Some (td, h) /\ tk_name t = td_name td /\
    if td_with_val td then boundary s p /\ boundary s (p + length u) /\ exists v, tk_val t = Some v /\ cut s p (p + length u) v
    else tk_val t = None.
Lemma slice_tokens tokens s ts : (forall p i u, In (p, i, u) ts -> exists td h, nth_error tokens i = Some (td, h)) ->
  (exists out, mapM (token_of tokens s) ts = Ok out /\ Forall2 (sliced_as tokens s) ts out) \/
  (mapM (token_of tokens s) ts = Panic PSlice /\
   exists p i u td h, In (p, i, u) ts /\ nth_error tokens i = Some (td, h) /\ td_with_val td = true /\ ~ (boundary s p /\ boundary s (p + length u))).
Proof.
  induction ts as [|[[p i] u] ts IH]; intros Hin; [left; exists []; split; [reflexivity|constructor]|].
  destruct (Hin p i u (or_introl eq_refl)) as (td & h & E). cbn [mapM].
  assert (H : (exists t, token_of tokens s (p, i, u) = Ok t /\ sliced_as tokens s (p, i, u) t) \/
              (token_of tokens s (p, i, u) = Panic PSlice /\ td_with_val td = true /\ ~ (boundary s p /\ boundary s (p + length u)))).
  { unfold token_of, sliced_as. rewrite E. destruct (td_with_val td) eqn:Ev.
    - destruct (byte_slice_spec s p (p + length u) ltac:(lia)) as [(H1 & H2 & v & -> & Hc)|[H1 ->]].
      + left. eexists. split; [reflexivity|]. exists td, h. rewrite Ev. cbn. eauto 8.
      + right. auto.
    - left. eexists. split; [reflexivity|]. exists td, h. rewrite Ev. auto. }
  destruct H as [(t & -> & Ht)|(-> & Hv & Hb)]; cbn [bind].
  - destruct IH as [(out & -> & HF)|(-> & p' & i' & u' & td' & h' & Hx & Hr)]; [intros; eapply Hin; right; eauto| |]; cbn [bind].
    + left. eexists. split; [reflexivity|]. constructor; auto.
    + right. split; auto. exists p', i', u', td', h'. split; [right|]; auto.
  - right. split; auto. exists p, i, u, td, h. split; [left|]; auto.
Qed.

(** When all definitions carry values. *)
Lemma slice_all tokens s ts : (forall td h, In (td, h) tokens -> td_with_val td = true) ->
  (forall p i u, In (p, i, u) ts -> exists td h, nth_error tokens i = Some (td, h)) ->
  (sliced s (map drop_idx ts) /\ exists out, mapM (token_of tokens s) ts = Ok out) \/
  (~ sliced s (map drop_idx ts) /\ mapM (token_of tokens s) ts = Panic PSlice).
Proof.
  intros Hv Hin. destruct (slice_tokens tokens s ts Hin) as [(out & E & HF)|(E & p & i & u & td & h & Hx & _ & _ & Hb)].
  - left. split; eauto. clear E. intros p u Hx. apply in_map_iff in Hx as ([[p' i] u'] & Ex & Hx). injection Ex as -> ->.
    clear Hin. induction HF as [|y t ts out Hy _ IH]; [destruct Hx|]. destruct Hx as [->|Hx]; [|auto].
    destruct Hy as (td & h & E & _ & H). apply nth_error_In in E. rewrite (Hv _ _ E) in H. destruct H as (H1 & H2 & _). auto.
  - right. split; auto. intros Hs. apply Hb, Hs. apply (in_map drop_idx) in Hx. exact Hx.
Qed.
