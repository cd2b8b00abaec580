(** Decision procedures for the grammar conditions, used only to check examples. *)
From Verif Require Import Base Grammar GrammarSpec.

Definition eof_free_b (g : grammar) : bool :=
  forallb (fun p => negb (existsb (eqb SEof) (p_syms p))) (g_prods g).
Lemma eof_free_b_ok g : eof_free_b g = true -> eof_free g.
Proof.
  unfold eof_free_b, eof_free. rewrite forallb_forall. intros H p Hp Hx. specialize (H p Hp).
  apply negb_true_iff in H. rewrite <- not_true_iff_false in H. apply H. apply existsb_exists.
  exists SEof. split; [exact Hx|apply eqb_refl].
Qed.
Definition eps_free_b (g : grammar) : bool :=
  forallb (fun p => negb (existsb (eqb SEps) (p_syms p)) &&
             match p_syms p with [] => false | _ => true end) (g_prods g).
Lemma eps_free_b_ok g : eps_free_b g = true -> eps_free g.
Proof.
  unfold eps_free_b, eps_free. rewrite forallb_forall. intros H p Hp. specialize (H p Hp).
  apply andb_true_iff in H as [H1 H2]. split.
  - intros C. rewrite C in H2. discriminate.
  - intros Hx. apply negb_true_iff in H1. rewrite <- not_true_iff_false in H1. apply H1.
    apply existsb_exists. exists SEps. split; [exact Hx|apply eqb_refl].
Qed.

Definition defined_b (g : grammar) : bool :=
  forallb (fun p => forallb (fun x => match x with
     | SNon n => existsb (fun q => eqb (p_name q) n) (g_prods g) | _ => true end) (p_syms p)) (g_prods g).
Lemma defined_b_ok g : defined_b g = true -> defined g.
Proof.
  unfold defined_b, defined. rewrite forallb_forall. intros H p n Hp Hn. specialize (H p Hp).
  rewrite forallb_forall in H. specialize (H _ Hn). apply existsb_exists in H as (q & Hq & E).
  apply eqb_eq in E. exists q. auto.
Qed.
