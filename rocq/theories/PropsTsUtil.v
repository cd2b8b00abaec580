(** Property C44: the type-level helpers of ts/util.ts. *)
From Verif Require Import Base TsUtil.

(** [GtImpl] is only used on different numbers. *)
Lemma gt_lit size : forall b a, a <> b -> a <= size -> b <= size -> GtLit size (Some a) b = Some (b <? a).
Proof.
  induction b as [|b IH]; intros a Hn Ha Hb; cbn [GtLit].
  - symmetry. f_equal. apply Nat.ltb_lt. lia.
  - destruct a as [|a]; [reflexivity|]. destruct (Nat.leb_spec (S b) size) as [_|]; [|lia]. cbn [Pred].
    destruct (Nat.leb_spec (S a) size) as [_|]; [|lia]. rewrite IH by lia. reflexivity.
Qed.

(** Beyond the tables the comparison of a positive number is lost. *)
Lemma gt_lit_out size b a : size < b -> GtLit size (Some a) b = if a =? 0 then Some false else None.
Proof.
  intros Hb. destruct b as [|b]; [lia|]. cbn [GtLit]. destruct a as [|a]; [reflexivity|].
  destruct (Nat.leb_spec (S b) size); [lia|reflexivity].
Qed.

Lemma gt_lit_eq size a : a <= size -> GtLit size (Some a) a = Some true.
Proof.
  induction a as [|a IH]; intros Ha; cbn [GtLit]; [reflexivity|]. cbn [Pred].
  destruct (Nat.leb_spec (S a) size) as [_|]; [|lia]. apply IH. lia.
Qed.

(** C44: the comparisons agree with arithmetic on the numbers of the tables. *)
Theorem C44_compare : forall size a b, a <= size -> b <= size ->
  Gte size (Some a) (Some b) = Some (b <=? a) /\
  Gt size (Some a) (Some b) = Some (b <? a) /\
  Lte size (Some a) (Some b) = Some (a <=? b) /\
  Lt size (Some a) (Some b) = Some (a <? b) /\
  Eq (Some a) (Some b) = Some (a =? b).
Proof.
  intros size a b Ha Hb. unfold Gte, Gt, Lte, Lt, extends, GtImpl, Eq.
  destruct (Nat.eqb_spec a b) as [->|Hn].
  - rewrite Nat.leb_refl, Nat.ltb_irrefl. repeat split; reflexivity.
  - rewrite (gt_lit size b a Hn Ha Hb). cbn [Negate option_map].
    repeat split; f_equal;
      repeat match goal with
             | |- context [?x <=? ?y] => destruct (Nat.leb_spec x y)
             | |- context [?x <? ?y] => destruct (Nat.ltb_spec x y)
             end; cbn [negb]; try reflexivity; lia.
Qed.
Print Assumptions C44_compare.

(** C44: addition and subtraction; [Sub] stops at [0] when [b] exceeds [a] (the source only claims
    it for [b <= a]), and [Add] is [never] when the sum leaves the table. *)
Theorem C44_arithmetic : forall size a b, a <= size -> b <= size ->
  Add size (Some a) (Some b) = (if a + b <=? size then Some (a + b) else None) /\
  Sub size (Some a) (Some b) = Some (a - b) /\
  Succ size (Some a) = (if a + 1 <=? size then Some (a + 1) else None) /\
  Pred size (Some a) = Some (a - 1).
Proof.
  intros size a b Ha Hb.
  assert (HN : forall m, m <= size -> AddLit size None m = match m with O => None | _ => None end).
  { induction m as [|m IH]; intros Hm; [reflexivity|]. cbn [AddLit]. destruct (Nat.leb_spec (S m) size); [|lia].
    cbn [Succ]. rewrite IH by lia. destruct m; reflexivity. }
  repeat split.
  - cbn [Add]. revert a Ha. induction b as [|b IH]; intros a Ha; cbn [AddLit].
    + rewrite Nat.add_0_r. destruct (Nat.leb_spec a size); [reflexivity|lia].
    + destruct (Nat.leb_spec (S b) size); [|lia]. cbn [Succ]. destruct (Nat.ltb_spec a size) as [Hl|Hl].
      * rewrite IH by lia. rewrite Nat.add_succ_r. reflexivity.
      * rewrite HN by lia. destruct (Nat.leb_spec (a + S b) size); [lia|]. destruct b; reflexivity.
  - cbn [Sub]. revert a Ha. induction b as [|b IH]; intros a Ha; cbn [SubLit].
    + rewrite Nat.sub_0_r. reflexivity.
    + destruct (Nat.leb_spec (S b) size); [|lia]. destruct a as [|a]; cbn [Pred].
      * rewrite IH by lia. reflexivity.
      * destruct (Nat.leb_spec (S a) size); [|lia]. rewrite IH by lia. reflexivity.
  - cbn [Succ]. destruct (Nat.ltb_spec a size), (Nat.leb_spec (a + 1) size); try lia; try reflexivity; rewrite Nat.add_1_r; reflexivity.
  - destruct a as [|a]; cbn [Pred]; [reflexivity|]. destruct (Nat.leb_spec (S a) size); [|lia]. f_equal. lia.
Qed.
Print Assumptions C44_arithmetic.

Lemma reverse_rev {X} (l : list X) : Reverse l = rev l.
Proof.
  unfold Reverse. assert (E : forall m, ReverseImpl l m = rev l ++ m).
  { induction l as [|x l IH]; intros m; cbn [ReverseImpl rev app]; [reflexivity|].
    rewrite IH, <- app_assoc. reflexivity. }
  rewrite E. apply app_nil_r.
Qed.

(** C44: the list helpers. A stack is a list with its top first; the popped values come bottom first,
    in the order of the right-hand side. *)
Theorem C44_lists : forall size X (l : list X),
  Reverse l = rev l /\
  (forall n, n <= size ->
     PopNStack size l n = (if n <=? length l then Some (skipn n l) else None) /\
     PopNStackWithValue size l n = (if n <=? length l then Some (skipn n l, rev (firstn n l)) else None)).
Proof.
  intros size X l. split; [apply reverse_rev|]. intros n Hn. split.
  - revert l. induction n as [|n IH]; intros l; [reflexivity|].
    destruct l as [|x l]; cbn [PopNStack skipn length]; [reflexivity|]. change (S n <=? S (length l)) with (n <=? length l).
    destruct (Nat.leb_spec (S n) size); [|lia]. apply IH. lia.
  - unfold PopNStackWithValue. rewrite <- (app_nil_r (rev (firstn n l))). generalize (@nil X) as r. revert l.
    induction n as [|n IH]; intros l r; [reflexivity|].
    destruct l as [|x l]; cbn [PopNStackWithValueImpl skipn length firstn rev]; [reflexivity|]. change (S n <=? S (length l)) with (n <=? length l).
    destruct (Nat.leb_spec (S n) size); [|lia]. rewrite IH by lia. rewrite <- app_assoc. reflexivity.
Qed.
Print Assumptions C44_lists.

Lemma cut_string size len : len <= size -> forall str ret i, i <= len ->
  CutString size str ret (Some len) (Some i) = TLit (ret ++ firstn (len - i) str).
Proof.
  intros Hl. induction str as [|c str IH]; intros ret i Hi; cbn [CutString extends];
    destruct (Nat.eqb_spec i len) as [->|Hn]; rewrite ?Nat.sub_diag, ?firstn_nil; cbn [firstn]; rewrite ?app_nil_r; try reflexivity.
  cbn [Succ]. destruct (Nat.ltb_spec i size) as [_|]; [|lia].
  rewrite IH by lia. replace (len - i) with (S (len - S i)) by lia. cbn [firstn]. rewrite <- app_assoc. reflexivity.
Qed.

(** C44: [Substring] is the slice from [start] to [end]; it is [undefined] when the string is too
    short to have a position [start]. *)
Theorem C44_substring : forall size str a b, a <= size -> b <= size ->
  Substring size str (Some a) (Some b) =
    if a <=? length str then TLit (firstn (b - a) (skipn a str)) else TUndefined.
Proof.
  intros size str a b Ha Hb. unfold Substring.
  assert (E : forall s i e, i <= a -> e <= size ->
    SubstringImpl size s (Some a) (Some e) (Some i) =
      if a - i <=? length s then TLit (firstn (e - (a - i)) (skipn (a - i) s)) else TUndefined).
  { induction s as [|c s IH]; intros i e Hi He; cbn [SubstringImpl extends];
      destruct (Nat.eqb_spec i a) as [->|Hn]; rewrite ?Nat.sub_diag, ?Nat.sub_0_r; cbn [skipn];
      try (change (0 <=? _) with true; rewrite cut_string by lia; rewrite Nat.sub_0_r; reflexivity).
    - destruct (Nat.leb_spec (a - i) (length (@nil N))) as [H|_]; [cbn [length] in H; lia|reflexivity].
    - destruct e as [|e]; cbn [Pred]; [|destruct (Nat.leb_spec (S e) size) as [_|]; [|lia]];
        cbn [Succ]; (destruct (Nat.ltb_spec i size) as [_|]; [|lia]); rewrite IH by lia;
        replace (a - i) with (S (a - S i)) by lia; cbn [length skipn]; rewrite ?Nat.sub_succ; reflexivity. }
  rewrite E by lia. rewrite Nat.sub_0_r. reflexivity.
Qed.
Print Assumptions C44_substring.

(** Beyond the tables the comparisons are neither true nor false: they are [never]. *)
Theorem C44_beyond_tables : forall size a b, 0 < a -> a <= size -> size < b ->
  Gte size (Some a) (Some b) = None /\ Lt size (Some a) (Some b) = None.
Proof.
  intros size a b Hp Ha Hb. unfold Gte, Lt, extends, GtImpl.
  destruct (Nat.eqb_spec a b); [lia|]. rewrite gt_lit_out by exact Hb.
  destruct (Nat.eqb_spec a 0); [lia|]. split; reflexivity.
Qed.
Print Assumptions C44_beyond_tables.

(** What is [never] stays [never], and so does what leaves the tables on the right. *)
Theorem C44_never : forall size (A B : option nat),
  (Succ size None = None /\ Pred size None = None) /\
  (Add size A None = None /\ Sub size A None = None /\ Add size None B = None /\ Sub size None B = None) /\
  (Gte size None B = None /\ Gt size None B = None /\ Lte size None B = None /\ Lt size None B = None /\ Eq None B = None) /\
  (forall a, Gte size (Some a) None = None /\ Gt size (Some a) None = None /\ Lte size (Some a) None = None /\ Lt size (Some a) None = None /\ Eq (Some a) None = Some false) /\
  (forall b, size < b -> Add size A (Some b) = None /\ Sub size A (Some b) = None) /\
  (forall a, size < a -> Succ size (Some a) = None /\ Pred size (Some a) = None).
Proof.
  intros size A B.
  assert (HA : forall b, AddLit size None b = None) by (induction b as [|b IH]; cbn [AddLit Succ]; [reflexivity|rewrite IH; destruct (S b <=? size); reflexivity]).
  assert (HS : forall b, SubLit size None b = None) by (induction b as [|b IH]; cbn [SubLit Pred]; [reflexivity|rewrite IH; destruct (S b <=? size); reflexivity]).
  split; [split; reflexivity|]. split; [|split; [|split; [|split]]].
  - split; [reflexivity|]. split; [reflexivity|]. split; destruct B as [b|]; cbn [Add Sub]; auto.
  - repeat split; reflexivity.
  - intros a. repeat split; reflexivity.
  - intros b Hb. destruct b as [|b]; [lia|]. cbn [Add Sub AddLit SubLit]. destruct (Nat.leb_spec (S b) size); [lia|]. auto.
  - intros a Ha. cbn [Succ]. destruct (Nat.ltb_spec a size); [lia|]. split; auto. destruct a as [|a]; [lia|]. cbn [Pred].
    destruct (Nat.leb_spec (S a) size); [lia|]. reflexivity.
Qed.
Print Assumptions C44_never.

Example C44_nonvacuous :
  Gte 9 (Some 4) (Some 7) = Some false /\ Lt 9 (Some 4) (Some 7) = Some true /\
  Add 9 (Some 4) (Some 5) = Some 9 /\ Sub 9 (Some 4) (Some 5) = Some 0 /\
  PopNStackWithValue 9 [1; 2; 3; 4] 3 = Some ([4], [3; 2; 1]) /\
  Substring 9 [97; 98; 99; 100]%N (Some 1) (Some 3) = TLit [98; 99]%N /\
  Gte 9 (Some 4) (Some 12) = None.
Proof. repeat split. Qed.
