(** Properties C45, C46 and C48: the content of quoted tokens of grammar files, and the order of
    AST symbols. *)
From Verif Require Import Base Regex Nfa Dfa DfaProofs Lex Grammar Support.

(** ** C45 *)

Lemma strip_content a b s : strip (a :: s ++ [b]) = Ok s.
Proof.
  unfold strip. simpl length. rewrite app_length. simpl length. destruct (Nat.ltb_spec (S (length s + 1)) 2) as [H|_]; [lia|].
  simpl skipn. replace (S (length s + 1) - 2) with (length s) by lia. f_equal. rewrite firstn_app, Nat.sub_diag, firstn_all. simpl.
  apply app_nil_r.
Qed.

(** Whatever the delimiters and the content, the content is kept. *)
Theorem C45_content :
  forall (a b : N) (content : str),
  alloc_quoted_str (a :: content ++ [b]) = Ok content /\
  alloc_ts_code (a :: content ++ [b]) = Ok content /\
  alloc_regex (a :: content ++ [b]) = Ok content.
Proof.
  intros a b s. split; [apply strip_content|]. split; [apply strip_content|].
  unfold alloc_regex. destruct (Nat.ltb_spec (byte_len (a :: s ++ [b])) 3) as [H|_]; [|apply strip_content].
  unfold byte_len in H. destruct s as [|c s]; [reflexivity|]. exfalso.
  assert (G : forall l, length l <= utf8_len l).
  { unfold utf8_len. induction l as [|d l IH]; simpl; [lia|]. pose proof (utf8_len1_pos d). lia. }
  specialize (G (a :: (c :: s) ++ [b])). simpl length in G. rewrite app_length in G. simpl length in G. lia.
Qed.
Print Assumptions C45_content.

(** And they panic exactly on texts that cannot be a delimited token. *)
Theorem C45_panics_iff :
  forall s, (alloc_quoted_str s = Panic PUnderflow <-> ~ exists a content b, s = a :: content ++ [b]) /\
  (alloc_ts_code s = Panic PUnderflow <-> ~ exists a content b, s = a :: content ++ [b]).
Proof.
  assert (H : forall s, strip s = Panic PUnderflow <-> ~ exists a content b, s = a :: content ++ [b]).
  { intros s. split.
    - intros E (a & c & b & ->). rewrite strip_content in E. discriminate.
    - intros Hn. unfold strip. destruct (Nat.ltb_spec (length s) 2) as [_|H]; [reflexivity|]. exfalso. apply Hn.
      destruct s as [|a [|c s]]; simpl in H; try lia. destruct (@exists_last _ (c :: s)) as (l & b & E); [discriminate|].
      rewrite E. eauto. }
  intros s. split; apply H.
Qed.
Print Assumptions C45_panics_iff.

Example C45_nonvacuous : alloc_regex (34 :: [8364; 97] ++ [34])%N = Ok [8364; 97]%N /\ alloc_quoted_str [34]%N = Panic PUnderflow.
Proof. split; vm_compute; reflexivity. Qed.

(** ** C46: escapes *)

(** What the token regex of grammar.lalrpop:41-42 lets stand between the quotes: backslash pairs,
    backslash-quote pairs and other characters; and the text it stands for. *)
Inductive escaped : str -> str -> Prop :=
| esc_nil : escaped [] []
| esc_back s t : escaped s t -> escaped (92 :: 92 :: s)%N (92 :: t)%N
| esc_quote s t : escaped s t -> escaped (92 :: 34 :: s)%N (34 :: t)%N
| esc_char c s t : c <> 92%N -> c <> 34%N -> escaped s t -> escaped (c :: s) (c :: t).

(** False: the literal keeps its backslashes. *)
Theorem C46_escapes_refuted :
  exists written meant, escaped written meant /\ alloc_quoted_str (34 :: written ++ [34])%N = Ok written /\ written <> meant.
Proof. exists [92; 34]%N, [34]%N. split; [repeat constructor|]. split; [reflexivity|discriminate]. Qed.
Print Assumptions C46_escapes_refuted.

Lemma escaped_length written meant : escaped written meant -> length meant <= length written /\ (In 92%N written -> length meant < length written).
Proof.
  induction 1 as [|s t _ (IH1 & IH2)|s t _ (IH1 & IH2)|c s t Hc Hq _ (IH1 & IH2)]; simpl; split; try lia; try (intros []; fail).
  intros [E|H]; [congruence|]. specialize (IH2 H). lia.
Qed.

(** The value is right exactly when there is nothing to unescape. *)
Theorem C46_escapes_partial :
  forall written meant, escaped written meant ->
  (alloc_quoted_str (34 :: written ++ [34])%N = Ok meant <-> ~ In 92%N written).
Proof.
  intros w m H. destruct (C45_content 34 34 w) as (E & _ & _). rewrite E. split.
  - intros E' Hin. injection E' as ->. apply (proj2 (escaped_length _ _ H)) in Hin. lia.
  - intros Hn. f_equal. clear E. induction H as [|s t H IH|s t H IH|c s t Hc Hq H IH]; auto.
    + exfalso. apply Hn. left. auto.
    + exfalso. apply Hn. left. auto.
    + f_equal. apply IH. intros Hin. apply Hn. right. auto.
Qed.
Print Assumptions C46_escapes_partial.

Example C46_nonvacuous : escaped [97; 92; 92]%N [97; 92]%N /\ escaped [97; 98]%N [97; 98]%N.
Proof. split; repeat (constructor; try discriminate). Qed.

(** ** C48: the order of AST symbols *)

(** False: it is neither reflexive nor antisymmetric, and different symbols compare as equal. *)
Theorem C48_order_refuted :
  isym_compare IEps IEps = Lt /\
  (forall ty, isym_compare ty ty = Eq -> isym_compare (INamed None ty) (INamed None ty) = Lt) /\
  (forall a b, isym_compare (INon a) (INon b) = Eq).
Proof. split; [reflexivity|]. split; [|reflexivity]. intros ty H. simpl. rewrite H. reflexivity. Qed.
Print Assumptions C48_order_refuted.


Fixpoint comparable (x : isym) : Prop :=
  match x with IStr _ | IReg _ => True | INamed (Some _) ty => comparable ty | _ => False end.

Lemma comparable_order :
  forall x y, comparable x -> comparable y ->
  (isym_compare x y = Eq <-> x = y) /\ isym_compare y x = CompOpp (isym_compare x y).
Proof.
  induction x as [s|n ty IH|s|s| |]; intros [s'|n' ty'|s'|s'| |] Hx Hy; simpl in Hx, Hy; try contradiction; cbn [isym_compare];
    try (split; [split; [discriminate|congruence]|reflexivity]).
  - split; [|apply cmp_antisym]. rewrite cmp_eq. split; congruence.
  - destruct n as [n|]; [|contradiction]. destruct n' as [n'|]; [|contradiction]. destruct (IH ty' Hx Hy) as [H1 H2]. rewrite H2.
    destruct (isym_compare ty ty') eqn:E; cbn [CompOpp].
    + split; [|apply cmp_antisym]. rewrite cmp_eq. split; [intros ->; f_equal; tauto|congruence].
    + split; [split; [discriminate|]|reflexivity]. intros H. injection H as -> Hty. apply H1 in Hty. discriminate.
    + split; [split; [discriminate|]|reflexivity]. intros H. injection H as -> Hty. apply H1 in Hty. discriminate.
  - split; [|apply cmp_antisym]. rewrite cmp_eq. split; congruence.
Qed.

Lemma comparable_trans : forall x y z, comparable x -> comparable y -> comparable z ->
  isym_compare x y = Lt -> isym_compare y z = Lt -> isym_compare x z = Lt.
Proof.
  induction x as [s|n ty IH|s|s| |]; intros [s'|n' ty'|s'|s'| |] [s2|n2 ty2|s2|s2| |] Hx Hy Hz; simpl in Hx, Hy, Hz; try contradiction;
    cbn [isym_compare]; try discriminate; try reflexivity; try (apply cmp_trans).
  destruct n as [n|]; [|contradiction]. destruct n' as [n'|]; [|contradiction]. destruct n2 as [n2|]; [|contradiction].
  destruct (isym_compare ty ty') eqn:E1; try discriminate; destruct (isym_compare ty' ty2) eqn:E2; try discriminate.
  - apply comparable_order in E1; auto. apply comparable_order in E2; auto. subst ty' ty2.
    rewrite (proj2 (proj1 (comparable_order ty ty Hx Hx)) eq_refl). apply cmp_trans.
  - apply comparable_order in E1; auto. subst ty'. rewrite E2. reflexivity.
  - apply comparable_order in E2; auto. subst ty2. rewrite E1. reflexivity.
  - rewrite (IH _ _ Hx Hy Hz E1 E2). reflexivity.
Qed.

(** On literals, regexes and named ones of these it is a total order compatible with equality. *)
Theorem C48_order_partial :
  forall x y, comparable x -> comparable y ->
  (isym_compare x y = Eq <-> x = y) /\ isym_compare y x = CompOpp (isym_compare x y) /\ (forall z, comparable z -> isym_compare x y = Lt -> isym_compare y z = Lt -> isym_compare x z = Lt).
Proof.
  intros x y Hx Hy. destruct (comparable_order x y Hx Hy) as [H1 H2]. split; auto. split; auto. intros z Hz. apply comparable_trans; auto.
Qed.
Print Assumptions C48_order_partial.

(** Symbols of different kinds, these and all others, are never equal and never both before each other; a
    third one that is of neither kind is before, between or after them. *)
Definition same_kind (x y : isym) : Prop :=
  match x, y with
  | IStr _, IStr _ | INamed _ _, INamed _ _ | INon _, INon _ | IReg _, IReg _ | IEps, IEps | IEof, IEof => True
  | _, _ => False
  end.

Theorem C48_kinds_partial :
  forall x y, ~ same_kind x y ->
  (isym_compare x y = Lt /\ isym_compare y x = Gt \/ isym_compare x y = Gt /\ isym_compare y x = Lt) /\
  (forall z, ~ same_kind y z -> ~ same_kind x z -> isym_compare x y = Lt -> isym_compare y z = Lt -> isym_compare x z = Lt).
Proof.
  intros x y H. split.
  - destruct x, y; simpl in H; try tauto; cbn; auto.
  - intros z Hy Hx. destruct x, y, z; simpl in H, Hx, Hy; try tauto; cbn; auto; discriminate.
Qed.
Print Assumptions C48_kinds_partial.

Example C48_kinds_nonvacuous : ~ same_kind (IStr [97]%N) (INon [97]%N) /\ ~ same_kind (INon [97]%N) (INamed None (INon [97]%N)).
Proof. split; exact (fun H => H). Qed.

Example C48_nonvacuous : comparable (INamed (Some [97]%N) (IStr [98]%N)) /\ comparable (IReg [98]%N).
Proof. split; exact I. Qed.
