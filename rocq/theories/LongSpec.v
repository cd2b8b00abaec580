(** Specification for C71: the size of a parse tree. *)
From Verif Require Import Base Grammar GrammarSpec.

(** The inner nodes of a tree, one for every use of a rule. *)
Fixpoint inner (t : tree) : nat := match t with Leaf _ => 0 | Node _ ts => S (list_sum (map inner ts)) end.
(** The leaves of a tree. *)
Fixpoint leaves (t : tree) : nat := match t with Leaf _ => 1 | Node _ ts => list_sum (map leaves ts) end.

Lemma inner_postorder t : length (postorder t) = inner t.
Proof.
  induction t as [x|p ts IH] using tree_ind'; [reflexivity|]. cbn [postorder inner]. rewrite app_length. cbn [length]. rewrite Nat.add_1_r. f_equal.
  induction IH as [|t ts H _ IH]; [reflexivity|]. cbn [flat_map map]. rewrite app_length, H, IH. reflexivity.
Qed.
Lemma leaves_yield t : length (yield t) = leaves t.
Proof.
  induction t as [x|p ts IH] using tree_ind'; [reflexivity|]. cbn [yield leaves].
  induction IH as [|t ts H _ IH]; [reflexivity|]. cbn [flat_map map]. rewrite app_length, H, IH. reflexivity.
Qed.
