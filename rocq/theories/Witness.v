(** Concrete grammars used in examples and counterexamples, and an injective core hash. *)
From Verif Require Import Base Grammar First Item Table TableSpec.

(** Core hashes without collisions: a unary encoding of the items. *)
Fixpoint ones (n : nat) (p : positive) : positive := match n with O => p | S n => xI (ones n p) end.
Definition ehash (l : list item) : N :=
  Npos (fold_right (fun it p => ones (fst it) (xO (ones (snd it) (xO p)))) xH l).

Lemma ones_inj n : forall n' p p', ones n (xO p) = ones n' (xO p') -> n = n' /\ p = p'.
Proof.
  induction n as [|n IH]; intros [|n'] p p' H; simpl in H; try discriminate.
  - injection H as ->. auto.
  - injection H as H. apply IH in H as [-> ->]. auto.
Qed.
Lemma ones_not_xH n p : ones n (xO p) <> xH.
Proof. destruct n; discriminate. Qed.
Lemma ehash_inj l l' : ehash l = ehash l' -> l = l'.
Proof.
  unfold ehash. intros H. injection H as H. revert l' H.
  induction l as [|[p d] l IH]; intros [|[p' d'] l'] H; simpl in H; auto.
  - exfalso. eapply ones_not_xH. symmetry. exact H.
  - exfalso. eapply ones_not_xH. exact H.
  - apply ones_inj in H as [-> H]. apply ones_inj in H as [-> H]. f_equal. auto.
Qed.
Lemma ehash_free sets : collision_free ehash sets.
Proof. intros s s' _ _ H. apply ehash_inj, H. Qed.

(** Builders: one-letter names. *)
Definition T (c : N) := IStr [c].
Definition V (c : N) := INon [c].
Definition P (n : N) (bs : list (list isym)) := AProd [n] (map (fun b => ABody b []) bs) false [].
Definition PS (n : N) (bs : list (list isym)) := AProd [n] (map (fun b => ABody b []) bs) true [].

Local Open Scope N_scope.
(** S -> C C; C -> "c" C | "d". *)
Definition w_cc : list aprod := [PS 83 [[V 67; V 67]]; P 67 [[T 99; V 67]; [T 100]]].
(** E -> E "+" T | T; T -> "x". *)
Definition w_expr : list aprod := [PS 69 [[V 69; T 43; V 84]; [V 84]]; P 84 [[T 120]]].
(** S -> "a" "b" | "a" "c". *)
Definition w27 : list aprod := [PS 83 [[T 97; T 98]; [T 97; T 99]]].
(** S -> u A p | v A q | w B r; A -> c D; B -> f D; D -> d. *)
Definition w28 : list aprod :=
  [PS 83 [[T 117; V 65; T 112]; [T 118; V 65; T 113]; [T 119; V 66; T 114]];
   P 65 [[T 99; V 68]]; P 66 [[T 102; V 68]]; P 68 [[T 100]]].
(** S -> u P p | v P q | w Q r; P -> c A; Q -> f A; A -> N y; N -> n. *)
Definition w32 : list aprod :=
  [PS 83 [[T 117; V 80; T 112]; [T 118; V 80; T 113]; [T 119; V 81; T 114]];
   P 80 [[T 99; V 65]]; P 81 [[T 102; V 65]]; P 65 [[V 78; T 121]]; P 78 [[T 110]]].
(** S -> u A E | v A q | w B r; A -> X | X D; X -> c; E -> p | d p; B -> f D; D -> d. *)
Definition w33 : list aprod :=
  [PS 83 [[T 117; V 65; V 69]; [T 118; V 65; T 113]; [T 119; V 66; T 114]];
   P 65 [[V 88]; [V 88; V 68]]; P 88 [[T 99]]; P 69 [[T 112]; [T 100; T 112]];
   P 66 [[T 102; V 68]]; P 68 [[T 100]]].
(** S -> u A p | v A q | w B r; A -> X D; X -> c | Y; Y -> X; B -> f D; D -> d. *)
Definition w31 : list aprod :=
  [PS 83 [[T 117; V 65; T 112]; [T 118; V 65; T 113]; [T 119; V 66; T 114]];
   P 65 [[V 88; V 68]]; P 88 [[T 99]; [V 89]]; P 89 [[V 88]]; P 66 [[T 102; V 68]]; P 68 [[T 100]]].
(** S -> "a" S' | "c", with the name the code gives to the augmented start symbol. *)
Definition w29 : list aprod := [PS 83 [[T 97; INon [83; 39]]; [T 99]]].
