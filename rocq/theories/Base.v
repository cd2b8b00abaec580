(** Common vocabulary of the model: results with explicit panics, ordered sets and maps
    (Rust's BTreeSet / BTreeMap), the loop combinator, and small list facts.
    Nothing in this file models repository code; it models the std collections it uses. *)
From Coq Require Export List Arith NArith Lia Bool Permutation.
Export ListNotations.

(** ** Results *)

(** The panics the modelled code can raise. *)
Inductive panic : Type :=
| PTodo          (* todo!() *)
| PUnwrapNone    (* Option/OptionUsize unwrap or expect on None *)
| PIndex         (* slice index out of range *)
| PAssert        (* assert! / debug_assert! failed *)
| PConflict      (* panic!("Conflict ...") in make_lalr_tables *)
| PInvalidToken  (* panic!("Invalid token ...") in parse_impl *)
| PNoStart       (* expect("Expect start production.") *)
| PNoProduction  (* expect("Production is undefined") *)
| PGotoEmpty     (* expect("Goto is empty") *)
| PStackEmpty    (* expect("Stack is empty") *)
| PUnderflow     (* usize subtraction overflow *)
| PSlice         (* string slice not on a char boundary / out of range *)
| PNoToken       (* panic!() in make_tok *)
| PDropped.      (* "Attempting to read item set that has been dropped" *)

(** [Diverge]: the fuel ran out; either proved impossible or proved to mean that the Rust
    code does not return. *)
Inductive res (A : Type) : Type :=
| Ok (a : A)
| Panic (p : panic)
| Diverge.
Arguments Ok {A} a. Arguments Panic {A} p. Arguments Diverge {A}.

(** Sequencing of statements that may panic; not a definition of the code. *)
Definition bind {A B} (r : res A) (f : A -> res B) : res B :=
  match r with Ok a => f a | Panic p => Panic p | Diverge => Diverge end.
Notation "'let*' x ':=' r 'in' f" := (bind r (fun x => f))
  (at level 200, x pattern, r at level 100, f at level 200, right associativity).

Lemma bind_ok {A B} (r : res A) (f : A -> res B) b :
  bind r f = Ok b -> exists a, r = Ok a /\ f a = Ok b.
Proof. destruct r; simpl; intros H; try discriminate; eauto. Qed.

(** The computation returned; used in statements only. *)
Definition is_ok {A} (r : res A) : bool := match r with Ok _ => true | _ => false end.

(** Monadic left fold: a Rust [for] loop whose body may panic. *)
Fixpoint foldM {A S} (f : S -> A -> res S) (l : list A) (s : S) : res S :=
  match l with
  | [] => Ok s
  | a :: l' => let* s' := f s a in foldM f l' s'
  end.

Lemma foldM_app {A S} (f : S -> A -> res S) l1 l2 s :
  foldM f (l1 ++ l2) s = let* s' := foldM f l1 s in foldM f l2 s'.
Proof.
  revert s; induction l1 as [|a l1 IH]; intros s; simpl; [reflexivity|].
  destruct (f s a); simpl; auto.
Qed.

Lemma foldM_inv {A S} (P : S -> Prop) (f : S -> A -> res S) l s s' :
  P s -> (forall a t t', In a l -> P t -> f t a = Ok t' -> P t') ->
  foldM f l s = Ok s' -> P s'.
Proof.
  revert s; induction l as [|a l IH]; simpl; intros s HP Hf H.
  - injection H as <-; exact HP.
  - apply bind_ok in H as (t & Ht & H). eapply IH; [|..|exact H]; eauto.
Qed.

(** Monadic map: [iter().map(f).collect()] with a panicking closure. *)
Fixpoint mapM {A B} (f : A -> res B) (l : list A) : res (list B) :=
  match l with
  | [] => Ok []
  | a :: l' => let* b := f a in let* bs := mapM f l' in Ok (b :: bs)
  end.

(** ** Total orders (Rust's [Ord]) *)

Class Ord (A : Type) : Type := {
  cmp : A -> A -> comparison;
  cmp_eq : forall a b, cmp a b = Eq <-> a = b;
  cmp_antisym : forall a b, cmp b a = CompOpp (cmp a b);
  cmp_trans : forall a b c, cmp a b = Lt -> cmp b c = Lt -> cmp a c = Lt }.

Section OrdFacts.
  Context {A : Type} `{Ord A}.
  Lemma cmp_refl a : cmp a a = Eq. Proof. apply cmp_eq; reflexivity. Qed.
  Lemma cmp_gt a b : cmp a b = Gt <-> cmp b a = Lt.
  Proof. rewrite (cmp_antisym a b); destruct (cmp a b); simpl; split; congruence. Qed.
  Lemma cmp_lt_irrefl a : cmp a a <> Lt.
  Proof. rewrite cmp_refl; discriminate. Qed.
  (** Rust's [==] where it agrees with [cmp], as for every key type used in /repo/src. *)
  Definition eqb (a b : A) : bool := match cmp a b with Eq => true | _ => false end.
  Lemma eqb_eq a b : eqb a b = true <-> a = b.
  Proof. unfold eqb. rewrite <- cmp_eq. destruct (cmp a b); split; congruence. Qed.
  Lemma eqb_neq a b : eqb a b = false <-> a <> b.
  Proof.
    rewrite <- not_true_iff_false. rewrite eqb_eq. reflexivity.
  Qed.
  Lemma eqb_refl a : eqb a a = true. Proof. apply eqb_eq; reflexivity. Qed.
  Lemma ord_dec (a b : A) : {a = b} + {a <> b}.
  Proof. destruct (eqb a b) eqn:E; [left; apply eqb_eq | right; apply eqb_neq]; exact E. Qed.
End OrdFacts.

#[global] Instance Ord_nat : Ord nat.
Proof.
  refine {| cmp := Nat.compare |}.
  - apply Nat.compare_eq_iff.
  - intros a b; apply Nat.compare_antisym.
  - intros a b c; rewrite !Nat.compare_lt_iff; lia.
Defined.

#[global] Instance Ord_N : Ord N.
Proof.
  refine {| cmp := N.compare |}.
  - apply N.compare_eq_iff.
  - intros a b; apply N.compare_antisym.
  - intros a b c; rewrite !N.compare_lt_iff; lia.
Defined.

Definition lex_cmp (c1 c2 : comparison) : comparison :=
  match c1 with Eq => c2 | _ => c1 end.

(** Lexicographic order on pairs: derived [Ord] of a two-field struct. *)
#[global] Instance Ord_pair {A B} `{Ord A} `{Ord B} : Ord (A * B).
Proof.
  refine {| cmp := fun x y => lex_cmp (cmp (fst x) (fst y)) (cmp (snd x) (snd y)) |}.
  - intros [a b] [a' b']; simpl. unfold lex_cmp.
    destruct (cmp a a') eqn:E.
    + apply cmp_eq in E; subst. rewrite cmp_eq. split; congruence.
    + split; [discriminate|]. intros E'; injection E' as -> ->. rewrite cmp_refl in E; discriminate.
    + split; [discriminate|]. intros E'; injection E' as -> ->. rewrite cmp_refl in E; discriminate.
  - intros [a b] [a' b']; simpl. rewrite (cmp_antisym a a').
    destruct (cmp a a') eqn:E; simpl; auto. apply cmp_antisym.
  - intros [a b] [a' b'] [a'' b'']; simpl. unfold lex_cmp.
    destruct (cmp a a') eqn:E1; destruct (cmp a' a'') eqn:E2; try discriminate; intros H1 H2.
    + apply cmp_eq in E1; apply cmp_eq in E2; subst. rewrite cmp_refl. eapply cmp_trans; eauto.
    + apply cmp_eq in E1; subst. rewrite E2; reflexivity.
    + apply cmp_eq in E2; subst. rewrite E1; reflexivity.
    + rewrite (cmp_trans _ _ _ E1 E2); reflexivity.
Defined.

(** Lexicographic order on lists: [Ord] of [Vec] and [str], e.g. of parser/ast.rs:39-40 [Ident]. *)
Fixpoint list_cmp {A} `{Ord A} (l l' : list A) : comparison :=
  match l, l' with
  | [], [] => Eq
  | [], _ => Lt
  | _, [] => Gt
  | x :: l, y :: l' => lex_cmp (cmp x y) (list_cmp l l')
  end.

(** Lexicographic order on lists.  For strings: Rust compares UTF-8 bytes, and UTF-8
    preserves code-point order, so this is [str]'s order. *)
#[global] Instance Ord_list {A} `{Ord A} : Ord (list A).
Proof.
  refine {| cmp := list_cmp |}.
  - induction a as [|x a IH]; intros [|y b]; simpl; try (split; congruence).
    unfold lex_cmp. destruct (cmp x y) eqn:E.
    + apply cmp_eq in E; subst. rewrite IH. split; congruence.
    + split; [discriminate|]. intros E'; injection E' as -> ->. rewrite cmp_refl in E; discriminate.
    + split; [discriminate|]. intros E'; injection E' as -> ->. rewrite cmp_refl in E; discriminate.
  - induction a as [|x a IH]; intros [|y b]; simpl; auto.
    rewrite (cmp_antisym x y). destruct (cmp x y); simpl; auto.
  - induction a as [|x a IH]; intros [|y b] [|z c]; simpl; try congruence.
    unfold lex_cmp.
    destruct (cmp x y) eqn:E1; destruct (cmp y z) eqn:E2; try discriminate; intros H1 H2.
    + apply cmp_eq in E1; apply cmp_eq in E2; subst. rewrite cmp_refl. eapply IH; eauto.
    + apply cmp_eq in E1; subst. rewrite E2; reflexivity.
    + apply cmp_eq in E2; subst. rewrite E1; reflexivity.
    + rewrite (cmp_trans _ _ _ E1 E2); reflexivity.
Defined.

(** ** BTreeSet: strictly sorted lists *)

Section Sets.
  Context {A : Type} `{Ord A}.

  (** [BTreeSet::insert], e.g. item.rs:259, lex/dfa.rs:249. *)
  Fixpoint set_insert (x : A) (l : list A) : list A :=
    match l with
    | [] => [x]
    | y :: l' => match cmp x y with
                 | Lt => x :: l
                 | Eq => l
                 | Gt => y :: set_insert x l'
                 end
    end.

  (** [BTreeSet::contains], e.g. lex/dfa.rs:52. *)
  Definition set_mem (x : A) (l : list A) : bool := existsb (eqb x) l.
  (** [BTreeSet::remove], first.rs:18. *)
  Definition set_remove (x : A) (l : list A) : list A := filter (fun y => negb (eqb x y)) l.
  (** [for x in l { s.insert(x) }] [BTreeSet::extend], item.rs:172. *)
  Definition set_extend (l s : list A) : list A := fold_left (fun s x => set_insert x s) l s.
  (** [BTreeSet::from_iter], e.g. item.rs:181, lex/dfa.rs:94-97. *)
  Definition set_of_list (l : list A) : list A := set_extend l [].

  (** Strictly sorted: the invariant of a BTreeSet. *)
  Fixpoint ssorted (l : list A) : Prop :=
    match l with
    | [] => True
    | x :: l' => (forall y, In y l' -> cmp x y = Lt) /\ ssorted l'
    end.

  Lemma set_mem_In x l : set_mem x l = true <-> In x l.
  Proof.
    unfold set_mem. rewrite existsb_exists. split.
    - intros (y & Hy & E). apply eqb_eq in E; subst; exact Hy.
    - intros Hx; exists x; split; [exact Hx | apply eqb_refl].
  Qed.

  Lemma set_mem_false x l : set_mem x l = false <-> ~ In x l.
  Proof. rewrite <- set_mem_In. destruct (set_mem x l); split; congruence. Qed.

  Lemma set_insert_In x l y : In y (set_insert x l) <-> y = x \/ In y l.
  Proof.
    induction l as [|z l IH]; simpl; [intuition auto|].
    destruct (cmp x z) eqn:E; simpl.
    - apply cmp_eq in E; subst. intuition auto.
    - intuition auto.
    - rewrite IH. intuition auto.
  Qed.

  Lemma set_insert_sorted x l : ssorted l -> ssorted (set_insert x l).
  Proof.
    induction l as [|z l IH]; simpl; intros Hs.
    - split; [intros y []|exact I].
    - destruct Hs as [Hz Hs]. destruct (cmp x z) eqn:E; simpl.
      + split; assumption.
      + split; [|split; assumption]. intros y [<-|Hy]; [exact E|].
        eapply cmp_trans; eauto.
      + split; [|auto]. intros y Hy. apply set_insert_In in Hy as [->|Hy]; [|auto].
        apply cmp_gt; exact E.
  Qed.

  Lemma set_extend_In l s y : In y (set_extend l s) <-> In y l \/ In y s.
  Proof.
    unfold set_extend. revert s; induction l as [|x l IH]; intros s; simpl; [intuition auto|].
    rewrite IH, set_insert_In. intuition auto.
  Qed.

  Lemma set_extend_sorted l s : ssorted s -> ssorted (set_extend l s).
  Proof.
    unfold set_extend. revert s; induction l as [|x l IH]; intros s Hs; simpl; auto.
    apply IH, set_insert_sorted, Hs.
  Qed.

  Lemma set_of_list_In l y : In y (set_of_list l) <-> In y l.
  Proof. unfold set_of_list. rewrite set_extend_In. simpl; intuition auto. Qed.

  Lemma set_of_list_sorted l : ssorted (set_of_list l).
  Proof. apply set_extend_sorted; exact I. Qed.

  Lemma set_remove_In x l y : In y (set_remove x l) <-> In y l /\ y <> x.
  Proof.
    unfold set_remove. rewrite filter_In, negb_true_iff, eqb_neq. intuition auto.
  Qed.

  Lemma ssorted_filter (f : A -> bool) l : ssorted l -> ssorted (filter f l).
  Proof.
    induction l as [|x l IH]; simpl; auto. intros [Hx Hs].
    destruct (f x); simpl; auto. split; auto.
    intros y Hy; apply filter_In in Hy as [Hy _]; auto.
  Qed.

  Lemma set_remove_sorted x l : ssorted l -> ssorted (set_remove x l).
  Proof. apply ssorted_filter. Qed.

  Lemma ssorted_NoDup l : ssorted l -> NoDup l.
  Proof.
    induction l as [|x l IH]; simpl; intros Hs; constructor.
    - destruct Hs as [Hx _]. intros Hin. apply Hx in Hin. rewrite cmp_refl in Hin; discriminate.
    - apply IH, Hs.
  Qed.

  (** Two strictly sorted lists with the same elements are equal. *)
  Lemma ssorted_ext l1 l2 :
    ssorted l1 -> ssorted l2 -> (forall x, In x l1 <-> In x l2) -> l1 = l2.
  Proof.
    revert l2; induction l1 as [|a l1 IH]; intros [|b l2] H1 H2 E; auto.
    - exfalso. apply (proj2 (E b)); left; reflexivity.
    - exfalso. apply (proj1 (E a)); left; reflexivity.
    - destruct H1 as [Ha H1], H2 as [Hb H2].
      assert (a = b) as <-.
      { destruct (proj1 (E a) (or_introl eq_refl)) as [->|Hin]; [reflexivity|].
        destruct (proj2 (E b) (or_introl eq_refl)) as [->|Hin']; [reflexivity|].
        exfalso. apply (cmp_lt_irrefl a). eapply cmp_trans; eauto. }
      f_equal. apply IH; auto. intros x; split; intros Hx.
      + destruct (proj1 (E x) (or_intror Hx)) as [<-|]; auto.
        apply Ha in Hx. rewrite cmp_refl in Hx; discriminate.
      + destruct (proj2 (E x) (or_intror Hx)) as [<-|]; auto.
        apply Hb in Hx. rewrite cmp_refl in Hx; discriminate.
  Qed.

  Lemma set_insert_present x l : ssorted l -> In x l -> set_insert x l = l.
  Proof.
    intros Hs Hin. apply ssorted_ext; auto using set_insert_sorted.
    intros y; rewrite set_insert_In. intuition (subst; auto).
  Qed.

  Lemma set_insert_length x l : ~ In x l -> length (set_insert x l) = S (length l).
  Proof.
    induction l as [|y l IH]; simpl; auto. intros Hn.
    destruct (cmp x y) eqn:E; simpl; auto.
    - apply cmp_eq in E; subst. exfalso; apply Hn; auto.
    - f_equal. apply IH. intros Hin; apply Hn; auto.
  Qed.
End Sets.

Lemma ssorted_app {A} `{Ord A} (l1 l2 : list A) :
  ssorted (l1 ++ l2) -> ssorted l1 /\ ssorted l2 /\ forall x y, In x l1 -> In y l2 -> cmp x y = Lt.
Proof.
  induction l1 as [|a l1 IH]; simpl; intros Hs.
  - split; [exact I|split; [exact Hs|]]. intros x y [].
  - destruct Hs as [Ha Hs]. apply IH in Hs as (H1 & H2 & H3).
    split; [split; auto using in_or_app|split; auto].
    intros x y [<-|Hx] Hy; auto using in_or_app.
Qed.

(** ** BTreeMap: association lists sorted by key *)

Section Maps.
  Context {K V : Type} `{Ord K}.

  (** [BTreeMap::get], e.g. table.rs:35. *)
  Fixpoint map_get (k : K) (m : list (K * V)) : option V :=
    match m with
    | [] => None
    | (k', v) :: m' => if eqb k k' then Some v else map_get k m'
    end.

  (** [entry(k)]: replace or insert the value computed from the present one. [BTreeMap::entry] with its match, e.g. item.rs:252-262. *)
  Fixpoint map_alter (k : K) (f : option V -> V) (m : list (K * V)) : list (K * V) :=
    match m with
    | [] => [(k, f None)]
    | (k', v) :: m' => match cmp k k' with
                       | Lt => (k, f None) :: m
                       | Eq => (k', f (Some v)) :: m'
                       | Gt => (k', v) :: map_alter k f m'
                       end
    end.

  (** [BTreeMap::insert], e.g. table.rs:235. *)
  Definition map_insert (k : K) (v : V) (m : list (K * V)) : list (K * V) :=
    map_alter k (fun _ => v) m.
  (** [BTreeMap::contains_key] or a [get] whose value is not used, lex/dfa.rs:124-129. *)
  Definition map_mem (k : K) (m : list (K * V)) : bool :=
    match map_get k m with Some _ => true | None => false end.
  (** [BTreeMap::keys], table.rs:42. *)
  Definition keys (m : list (K * V)) : list K := map fst m.
  (** Keys strictly sorted: the invariant of a BTreeMap. *)
  Definition msorted (m : list (K * V)) : Prop := ssorted (keys m).

  Lemma map_alter_keys k f m x :
    In x (keys (map_alter k f m)) <-> x = k \/ In x (keys m).
  Proof.
    unfold keys. induction m as [|[k' v] m IH]; simpl; [intuition auto|].
    destruct (cmp k k') eqn:E; simpl.
    - apply cmp_eq in E; subst. intuition auto.
    - intuition auto.
    - rewrite IH. intuition auto.
  Qed.

  Lemma map_alter_sorted k f m : msorted m -> msorted (map_alter k f m).
  Proof.
    unfold msorted. induction m as [|[k' v] m IH]; simpl.
    - intros _; split; [intros y []|exact I].
    - intros [Hk Hs]. destruct (cmp k k') eqn:E; simpl.
      + split; auto.
      + split; [|split; auto]. intros y [<-|Hy]; [exact E|]. eapply cmp_trans; eauto.
      + split; [|auto]. intros y Hy. apply map_alter_keys in Hy as [->|Hy]; auto.
        apply cmp_gt; exact E.
  Qed.

  Lemma map_get_In k m v : map_get k m = Some v -> In (k, v) m.
  Proof.
    induction m as [|[k' v'] m IH]; simpl; [discriminate|].
    destruct (eqb k k') eqn:E; auto.
    intros E'; injection E' as ->. apply eqb_eq in E; subst; auto.
  Qed.

  Lemma map_get_None k m : map_get k m = None <-> ~ In k (keys m).
  Proof.
    unfold keys. induction m as [|[k' v'] m IH]; simpl; [intuition auto|].
    destruct (eqb k k') eqn:E.
    - apply eqb_eq in E; subst. split; [discriminate|]. intros Hn; exfalso; auto.
    - apply eqb_neq in E. rewrite IH. intuition auto.
  Qed.

  Lemma map_get_Some_key k m : In k (keys m) <-> exists v, map_get k m = Some v.
  Proof.
    destruct (map_get k m) as [v|] eqn:E.
    - split; [eauto|intros _]. apply map_get_In in E. apply (in_map fst) in E; exact E.
    - apply map_get_None in E. split; [tauto|intros [v Hv]; discriminate].
  Qed.

  Lemma In_map_get k v m : msorted m -> In (k, v) m -> map_get k m = Some v.
  Proof.
    unfold msorted. induction m as [|[k' v'] m IH]; simpl; [tauto|].
    intros [Hk Hs] [E|Hin].
    - injection E as -> ->. rewrite eqb_refl; reflexivity.
    - destruct (eqb k k') eqn:E; auto.
      apply eqb_eq in E; subst. apply (in_map fst) in Hin. apply Hk in Hin.
      simpl in Hin. rewrite cmp_refl in Hin; discriminate.
  Qed.

  Lemma map_get_iff k v m : msorted m -> map_get k m = Some v <-> In (k, v) m.
  Proof. intros Hs; split; [apply map_get_In|apply In_map_get, Hs]. Qed.

  Lemma map_get_alter_same k f m :
    msorted m -> map_get k (map_alter k f m) = Some (f (map_get k m)).
  Proof.
    unfold msorted. induction m as [|[k' v] m IH]; simpl.
    - intros _; rewrite eqb_refl; reflexivity.
    - intros [Hk Hs]. destruct (cmp k k') eqn:E; simpl.
      + apply cmp_eq in E; subst. rewrite eqb_refl; reflexivity.
      + rewrite eqb_refl. unfold eqb; rewrite E.
        assert (map_get k m = None) as ->; [|reflexivity].
        apply map_get_None. intros Hin. apply Hk in Hin.
        apply (cmp_lt_irrefl k). eapply cmp_trans; eauto.
      + unfold eqb; rewrite E. apply IH, Hs.
  Qed.

  Lemma map_get_alter_other k k' f m :
    k' <> k -> map_get k' (map_alter k f m) = map_get k' m.
  Proof.
    intros Hn. induction m as [|[k0 v] m IH]; simpl.
    - apply eqb_neq in Hn. rewrite Hn; reflexivity.
    - destruct (cmp k k0) eqn:E; simpl.
      + apply cmp_eq in E; subst. apply eqb_neq in Hn; rewrite Hn; reflexivity.
      + apply eqb_neq in Hn; rewrite Hn; reflexivity.
      + rewrite IH; reflexivity.
  Qed.

  Lemma map_insert_sorted k v m : msorted m -> msorted (map_insert k v m).
  Proof. apply map_alter_sorted. Qed.
  Lemma map_get_insert_same k v m : msorted m -> map_get k (map_insert k v m) = Some v.
  Proof. apply map_get_alter_same. Qed.
  Lemma map_get_insert_other k k' v m : k' <> k -> map_get k' (map_insert k v m) = map_get k' m.
  Proof. apply map_get_alter_other. Qed.

  (** Sorted maps with the same lookups are equal. *)
  Lemma msorted_ext m1 m2 :
    msorted m1 -> msorted m2 -> (forall k, map_get k m1 = map_get k m2) -> m1 = m2.
  Proof.
    intros H1 H2 E.
    assert (Hk : keys m1 = keys m2).
    { apply ssorted_ext; auto. intros x. rewrite !map_get_Some_key, E. reflexivity. }
    revert m2 H1 H2 E Hk. unfold msorted, keys.
    induction m1 as [|[k v] m1 IH]; intros [|[k' v'] m2] H1 H2 E Hk; try discriminate; auto.
    simpl in Hk; injection Hk as -> Hk.
    pose proof (E k') as E0. simpl in E0. rewrite eqb_refl in E0. injection E0 as ->.
    f_equal. destruct H1 as [Hx H1], H2 as [Hy H2]. apply IH; auto.
    intros k. specialize (E k). simpl in E. destruct (eqb k k') eqn:Ek; auto.
    apply eqb_eq in Ek; subst.
    assert (forall m, ~ In k' (map fst m) -> map_get k' m = None) as Hnone.
    { intros m Hn. apply map_get_None. exact Hn. }
    rewrite !Hnone; auto; intros Hin.
    - apply Hy in Hin. rewrite cmp_refl in Hin; discriminate.
    - apply Hx in Hin. rewrite cmp_refl in Hin; discriminate.
  Qed.
End Maps.

(** ** Loops *)

(** [run step b s]: up to [2^b] iterations of a loop whose body either continues ([inl]) or
    breaks with a result ([inr]). *)
Fixpoint run {S R : Type} (step : S -> S + R) (bits : nat) (s : S) : S + R :=
  match bits with
  | O => step s
  | Datatypes.S b => match run step b s with
                     | inl s' => run step b s'
                     | inr r => inr r
                     end
  end.

Section Run.
  Context {S R : Type} (step : S -> S + R).

  (** Partial correctness of a loop. *)
  Lemma run_inv (I : S -> Prop) (Q : R -> Prop) b s :
    (forall s s', I s -> step s = inl s' -> I s') ->
    (forall s r, I s -> step s = inr r -> Q r) ->
    I s ->
    match run step b s with inl s' => I s' | inr r => Q r end.
  Proof.
    intros Hstep Hend. revert s; induction b as [|b IH]; intros s Hs; simpl.
    - destruct (step s) eqn:E; eauto.
    - specialize (IH s Hs) as H1. destruct (run step b s) eqn:E; auto.
      apply IH, H1.
  Qed.

  (** Termination of a loop under a measure. *)
  Lemma run_measure (I : S -> Prop) (mu : S -> N) b s :
    (forall s s', I s -> step s = inl s' -> I s' /\ (mu s' < mu s)%N) ->
    I s -> (mu s < 2 ^ N.of_nat b)%N ->
    exists r, run step b s = inr r.
  Proof.
    intros Hstep.
    assert (G : forall b s, I s ->
       match run step b s with
       | inl s' => I s' /\ (mu s' + 2 ^ N.of_nat b <= mu s)%N
       | inr _ => True end).
    { clear b s. intros b; induction b as [|b IH]; intros s Hs.
      - change (run step 0 s) with (step s). destruct (step s) eqn:E; auto.
        destruct (Hstep _ _ Hs E) as [Hs' Hlt]. split; auto.
        change (2 ^ N.of_nat 0)%N with 1%N. lia.
      - change (run step (Datatypes.S b) s)
          with (match run step b s with inl s' => run step b s' | inr r => inr r end).
        pose proof (IH s Hs) as H1. destruct (run step b s) as [s'|r]; auto.
        destruct H1 as [Hs' H1]. pose proof (IH s' Hs') as H2.
        destruct (run step b s') as [s''|r]; auto. destruct H2 as [Hs'' H2].
        split; auto. rewrite Nat2N.inj_succ, N.pow_succ_r'. lia. }
    intros Hs Hlt. specialize (G b s Hs). destruct (run step b s) as [s'|r]; eauto.
    destruct G as [_ G]. exfalso; lia.
  Qed.

  Lemma run_measure_nat (I : S -> Prop) (mu : S -> nat) b s :
    (forall s s', I s -> step s = inl s' -> I s' /\ mu s' < mu s) ->
    I s -> mu s < 2 ^ b ->
    exists r, run step b s = inr r.
  Proof.
    intros Hstep Hs Hlt.
    apply (run_measure I (fun s => N.of_nat (mu s))); auto.
    - intros t t' Ht E. destruct (Hstep t t' Ht E). split; auto; lia.
    - pose proof (Nat2N.inj_pow 2 b) as E. change (N.of_nat 2) with 2%N in E. rewrite <- E. lia.
  Qed.

  (** n-fold iteration, to relate loops with different fuel. *)
  Inductive nsteps : nat -> S -> S -> Prop :=
  | nsteps_0 s : nsteps 0 s s
  | nsteps_S n s s' s'' : step s = inl s' -> nsteps n s' s'' -> nsteps (Datatypes.S n) s s''.

  Lemma nsteps_trans n m s s' s'' : nsteps n s s' -> nsteps m s' s'' -> nsteps (n + m) s s''.
  Proof. induction 1; simpl; auto. intros; econstructor; eauto. Qed.

  Lemma run_nsteps b s :
    match run step b s with
    | inl s' => nsteps (2 ^ b) s s'
    | inr r => exists n s', n < 2 ^ b /\ nsteps n s s' /\ step s' = inr r
    end.
  Proof.
    revert s; induction b as [|b IH]; intros s; simpl.
    - destruct (step s) eqn:E.
      + econstructor; eauto. constructor.
      + exists 0, s; repeat split; auto. constructor.
    - pose proof (IH s) as H1. destruct (run step b s) as [s'|r].
      + pose proof (IH s') as H2. destruct (run step b s') as [s''|r].
        * replace (2 ^ b + (2 ^ b + 0)) with (2 ^ b + 2 ^ b) by lia. eapply nsteps_trans; eauto.
        * destruct H2 as (n & t & Hn & Hst & E). exists (2 ^ b + n), t.
          repeat split; auto; [lia|]. eapply nsteps_trans; eauto.
      + destruct H1 as (n & t & Hn & Hst & E). exists n, t. repeat split; auto; lia.
  Qed.

  Lemma nsteps_det n s s1 s2 : nsteps n s s1 -> nsteps n s s2 -> s1 = s2.
  Proof.
    intros H1; revert s2; induction H1; intros s2 H2; inversion H2; subst; auto.
    match goal with E1 : step s = _, E2 : step s = _ |- _ => rewrite E1 in E2; injection E2 as <- end.
    auto.
  Qed.

  Lemma nsteps_split n m s s'' : nsteps (n + m) s s'' -> exists s', nsteps n s s' /\ nsteps m s' s''.
  Proof.
    revert s; induction n as [|n IH]; simpl; intros s H1.
    - exists s; split; [constructor|exact H1].
    - inversion H1 as [|n' s0 s1 s2 E Hr]; subst. apply IH in Hr as (t & Ha & Hb).
      exists t; split; auto. econstructor; eauto.
  Qed.

  (** If the loop ends after [n] iterations, every sufficient fuel gives its result. *)
  Lemma nsteps_run n s s' r b :
    nsteps n s s' -> step s' = inr r -> n < 2 ^ b -> run step b s = inr r.
  Proof.
    intros Hn E Hlt. pose proof (run_nsteps b s) as Hr. destruct (run step b s) as [t|r'].
    - exfalso. replace (2 ^ b) with (n + Datatypes.S (2 ^ b - n - 1)) in Hr by lia.
      apply nsteps_split in Hr as (u & Hu & Hv). pose proof (nsteps_det _ _ _ _ Hn Hu) as <-.
      inversion Hv; congruence.
    - destruct Hr as (m & u & Hm & Hu & E'). f_equal.
      destruct (Nat.lt_trichotomy n m) as [Hc|[Hc|Hc]].
      + replace m with (n + Datatypes.S (m - n - 1)) in Hu by lia.
        apply nsteps_split in Hu as (v & Hv & Hw). pose proof (nsteps_det _ _ _ _ Hn Hv) as <-.
        inversion Hw; congruence.
      + subst. pose proof (nsteps_det _ _ _ _ Hn Hu) as <-. congruence.
      + replace n with (m + Datatypes.S (n - m - 1)) in Hn by lia.
        apply nsteps_split in Hn as (v & Hv & Hw). pose proof (nsteps_det _ _ _ _ Hu Hv) as <-.
        inversion Hw; congruence.
  Qed.
End Run.

(** ** List facts *)

(** [v[i] = ...], e.g. lex/dfa.rs:179. *)
Fixpoint update_nth {A} (n : nat) (f : A -> A) (l : list A) : list A :=
  match l, n with
  | [], _ => []
  | x :: l', O => f x :: l'
  | x :: l', S n' => x :: update_nth n' f l'
  end.

Lemma update_nth_length {A} n (f : A -> A) l : length (update_nth n f l) = length l.
Proof. revert n; induction l as [|x l IH]; intros [|n]; simpl; auto. Qed.

Lemma nth_error_update_same {A} n (f : A -> A) l x :
  nth_error l n = Some x -> nth_error (update_nth n f l) n = Some (f x).
Proof.
  revert n; induction l as [|y l IH]; intros [|n]; simpl; try discriminate; auto.
  intros E; injection E as ->; reflexivity.
Qed.

Lemma nth_error_update_other {A} n m (f : A -> A) l :
  n <> m -> nth_error (update_nth n f l) m = nth_error l m.
Proof.
  revert n m; induction l as [|y l IH]; intros [|n] [|m] Hn; simpl; auto; try congruence.
Qed.

(** An iterator that stops at the first failure, lex/dfa.rs:355-375 and lex/nfa.rs:457-475. *)
Fixpoint take_while {A} (f : A -> bool) (l : list A) : list A :=
  match l with
  | [] => []
  | x :: l' => if f x then x :: take_while f l' else []
  end.

(** [iter().position(f)] from an index on. *)
Fixpoint find_index_from {A} (f : A -> bool) (l : list A) (i : nat) : option nat :=
  match l with
  | [] => None
  | x :: l' => if f x then Some i else find_index_from f l' (S i)
  end.
(** [iter().position(f)] *)
Definition find_index {A} (f : A -> bool) (l : list A) : option nat := find_index_from f l 0.

Lemma find_index_from_some {A} (f : A -> bool) l i j :
  find_index_from f l i = Some j ->
  i <= j /\ (exists x, nth_error l (j - i) = Some x /\ f x = true) /\
  forall k y, i <= k < j -> nth_error l (k - i) = Some y -> f y = false.
Proof.
  revert i; induction l as [|x l IH]; intros i; simpl; [discriminate|].
  destruct (f x) eqn:E.
  - intros E'; injection E' as <-. split; [lia|]. rewrite Nat.sub_diag. split; [exists x; auto|].
    intros; lia.
  - intros Hj. apply IH in Hj as (Hle & (y & Hy & Hf) & Hmin). split; [lia|]. split.
    + exists y. replace (j - i) with (S (j - S i)) by lia. auto.
    + intros k z Hk Hz. destruct (Nat.eq_dec k i) as [->|].
      * rewrite Nat.sub_diag in Hz. injection Hz as <-; exact E.
      * replace (k - i) with (S (k - S i)) in Hz by lia. apply (Hmin k z); auto; lia.
Qed.

Lemma find_index_some {A} (f : A -> bool) l j :
  find_index f l = Some j ->
  (exists x, nth_error l j = Some x /\ f x = true) /\
  forall k y, k < j -> nth_error l k = Some y -> f y = false.
Proof.
  intros H. apply find_index_from_some in H as (_ & (x & Hx & Hf) & Hmin).
  rewrite Nat.sub_0_r in Hx. split; [eauto|].
  intros k y Hk Hy. apply (Hmin k y); [lia|]. rewrite Nat.sub_0_r; exact Hy.
Qed.

Lemma find_index_none {A} (f : A -> bool) l :
  find_index f l = None <-> forall x, In x l -> f x = false.
Proof.
  unfold find_index. generalize 0. induction l as [|x l IH]; intros i; simpl.
  - split; [intros _ x []|reflexivity].
  - destruct (f x) eqn:E.
    + split; [discriminate|]. intros Hf. rewrite (Hf x) in E; auto; discriminate.
    + rewrite IH. split; intros Hf; [intros y [<-|Hy]; auto|intros y Hy; auto].
Qed.

(** The list of all sublists; used to bound the number of sorted sets. *)
Fixpoint sublists {A} (l : list A) : list (list A) :=
  match l with
  | [] => [[]]
  | x :: l' => map (cons x) (sublists l') ++ sublists l'
  end.

Lemma sublists_length {A} (l : list A) : length (sublists l) = 2 ^ length l.
Proof.
  induction l as [|x l IH]; simpl; auto. rewrite app_length, map_length, IH. lia.
Qed.

Lemma ssorted_in_sublists {A} `{Ord A} (u l : list A) :
  ssorted u -> ssorted l -> incl l u -> In l (sublists u).
Proof.
  revert l; induction u as [|a u IH]; intros l Hu Hl Hi; simpl.
  - destruct l as [|x l]; auto. exfalso; apply (Hi x); left; reflexivity.
  - destruct Hu as [Ha Hu]. apply in_or_app. destruct l as [|x l].
    + right. apply IH; auto. intros y [].
    + destruct Hl as [Hx Hl]. destruct (Hi x (or_introl eq_refl)) as [<-|Hin].
      * left. apply in_map. apply IH; auto. intros y Hy.
        destruct (Hi y (or_intror Hy)) as [<-|]; auto.
        apply Hx in Hy. rewrite cmp_refl in Hy; discriminate.
      * right. apply IH; auto; [split; auto|]. intros y [<-|Hy]; auto.
        destruct (Hi y (or_intror Hy)) as [<-|]; auto.
        apply Hx in Hy. apply Ha in Hin. exfalso. apply (cmp_lt_irrefl a). eapply cmp_trans; eauto.
Qed.

Lemma ssorted_count {A} `{Ord A} (u : list A) (ls : list (list A)) :
  ssorted u -> NoDup ls -> (forall l, In l ls -> ssorted l /\ incl l u) ->
  length ls <= 2 ^ length u.
Proof.
  intros Hu Hnd Hls. rewrite <- sublists_length. apply NoDup_incl_length; auto.
  intros l Hl. destruct (Hls l Hl). apply ssorted_in_sublists; auto.
Qed.

Lemma ssorted_seq a n : ssorted (seq a n).
Proof.
  revert a; induction n as [|n IH]; intros a; simpl; auto. split; auto.
  intros y Hy. apply in_seq in Hy. simpl. apply Nat.compare_lt_iff. lia.
Qed.

Lemma NoDup_snoc {A} (l : list A) x : NoDup l -> ~ In x l -> NoDup (l ++ [x]).
Proof.
  intros Hl Hx. apply NoDup_rev in Hl. rewrite <- (rev_involutive (l ++ [x])).
  apply NoDup_rev. rewrite rev_app_distr. simpl. constructor; auto.
  rewrite <- in_rev; exact Hx.
Qed.

Lemma nth_error_snoc {A} (l : list A) x : nth_error (l ++ [x]) (length l) = Some x.
Proof. rewrite nth_error_app2, Nat.sub_diag; auto. Qed.

Lemma nth_error_lt {A} (l : list A) n x : nth_error l n = Some x -> n < length l.
Proof. intros E. apply nth_error_Some. congruence. Qed.

Lemma nth_error_ge {A} (l : list A) n : length l <= n -> nth_error l n = None.
Proof. apply nth_error_None. Qed.

Lemma Forall2_impl {A B} (P Q : A -> B -> Prop) l1 l2 :
  (forall a b, P a b -> Q a b) -> Forall2 P l1 l2 -> Forall2 Q l1 l2.
Proof. intros HPQ; induction 1; constructor; auto. Qed.

Lemma Forall2_len {A B} (P : A -> B -> Prop) l1 l2 : Forall2 P l1 l2 -> length l1 = length l2.
Proof. induction 1; simpl; auto. Qed.
