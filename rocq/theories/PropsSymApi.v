(** Property C96: what a symbol of a grammar file says about itself. *)
From Verif Require Import Base Regex Nfa Dfa Lex Grammar LexGrammar SymApi.

(** What a symbol stands for, under any number of names. *)
Inductive names : isym -> isym -> Prop :=
| nm_here x : (forall n ty, x <> INamed n ty) -> names x x
| nm_named n ty x : names ty x -> names (INamed n ty) x.

Lemma names_lower x y : names x y -> lower x = lower y.
Proof. induction 1; auto. Qed.
Lemma names_ex x : exists y, names x y.
Proof.
  induction x as [s|n ty [y IH]|s|s| |]; [eexists; constructor; discriminate|exists y; constructor; exact IH|eexists; constructor; discriminate..].
Qed.

(** Whether it is a terminal, and its name if it is not. *)
Theorem C96_kind :
  forall x, (input_is_terminal x = true <-> forall n, ~ names x (INon n)) /\ (forall n, input_as_non_terminal x = Some n <-> names x (INon n)) /\
    input_is_terminal x = is_term (lower x) /\ input_as_non_terminal x = as_non (lower x).
Proof.
  induction x as [s|o ty (IH1 & IH2 & IH3 & IH4)|s|s| |].
  2: { assert (I : forall n, names (INamed o ty) (INon n) <-> names ty (INon n)).
       { intros n. split; [intros H; inversion H as [|? ? ? H']; subst; exact H'|apply nm_named]. }
       cbn [input_is_terminal input_as_non_terminal lower]. repeat split; auto.
       - intros H n Hn. apply I in Hn. exact (proj1 IH1 H n Hn).
       - intros H. apply IH1. intros n Hn. exact (H n (proj2 (I n) Hn)).
       - intros H. apply I, IH2, H.
       - intros H. apply I, IH2 in H. exact H. }
  2: { cbn. repeat split; try discriminate; try reflexivity.
       - intros H. exfalso. apply (H s). constructor. discriminate.
       - intros E. injection E as <-. constructor. discriminate.
       - intros H. inversion H; subst. reflexivity. }
  all: cbn; repeat split; try discriminate; try reflexivity; intros; match goal with H : names _ _ |- _ => inversion H | |- ~ _ => intros Hx; inversion Hx end.
Qed.
Print Assumptions C96_kind.

(** The two functions of a lowered symbol agree. *)
Theorem C96_lowered :
  forall parse x i, (forall r, token_def_with_regex parse x i = Ok r -> to_token_def x i = option_map fst r) /\
    (token_def_with_regex parse x i = Panic PUnwrapNone <-> exists r, x = SReg r /\ parse r = None) /\
    (forall d, to_token_def x i = Some d -> td_idx d = Some i /\ td_with_val d = true /\ (x = SStr (td_name d) \/ x = SReg (td_name d))).
Proof.
  intros parse x i. destruct x as [s|s|s| |]; cbn; repeat split; try discriminate;
    try (intros r E; injection E as <-; reflexivity); try (intros (r & E & _); discriminate);
    try (match goal with |- forall d, Some _ = Some _ -> _ => idtac end); try (match goal with H : Some _ = Some _ |- _ => injection H as <-; cbn; auto end).
  - destruct (parse s) as [h|]; [|discriminate]. intros r E. injection E as <-. reflexivity.
  - destruct (parse s) as [h|] eqn:E; [discriminate|]. intros _. eauto.
  - intros (r & E & Hr). injection E as <-. rewrite Hr. reflexivity.
Qed.
Print Assumptions C96_lowered.

(** The function of a symbol of the file gives the same as that of the lowered symbol unless the
    symbol is a literal.  For a literal the name and the number are the same, the token has no value,
    and the regular expression is the same only if the text of the literal, read as a regular
    expression, stands for itself; if it cannot be read as one, the function panics. *)
Theorem C96_file_partial :
  forall parse x i,
    ((forall s, ~ names x (IStr s)) -> input_token_def_with_regex parse x i = token_def_with_regex parse (lower x) i) /\
    (forall s, names x (IStr s) ->
      exists d h, token_def_with_regex parse (lower x) i = Ok (Some (d, h)) /\
        input_token_def_with_regex parse x i =
          match parse s with Some h' => Ok (Some (TokenDef (td_name d) false (td_idx d), h')) | None => Panic PUnwrapNone end /\
        (option_map snd (match input_token_def_with_regex parse x i with Ok r => r | _ => None end) = Some h <-> parse s = Some (lit_hir s))).
Proof.
  intros parse x i. destruct (names_ex x) as [y Hy]. rewrite (names_lower _ _ Hy).
  assert (E : input_token_def_with_regex parse x i = input_token_def_with_regex parse y i) by (induction Hy; auto).
  assert (U : forall z, names x z -> z = y).
  { clear E. induction Hy as [x Hn|n ty x _ IH]; intros z Hz; inversion Hz as [? Hz'|? ? ? H']; subst; auto; exfalso; [eapply Hn|eapply Hz']; reflexivity. }
  assert (Hn : forall n ty, y <> INamed n ty) by (clear E U; induction Hy; auto).
  rewrite E. split.
  - intros Hs. destruct y as [s|n ty|s|s| |]; cbn; auto; [exfalso; exact (Hs s Hy)|exfalso; eapply Hn; reflexivity].
  - intros s Hs. apply U in Hs. subst y. exists (TokenDef s true (Some i)), (lit_hir s). cbn. split; auto. split; auto.
    destruct (parse s) as [h|]; cbn; split; intros X; congruence.
Qed.
Print Assumptions C96_file_partial.

(** So the two do not agree: with a parser for which a dot stands for any letter, the literal "."
    of the file matches other texts, and a literal that is no regular expression panics. *)
Definition dot_regex (s : str) : option hir :=
  match s with [46%N] => Some (HClass [(97, 122)%N]) | [43%N] => None | [c] => Some (HLit c) | _ => None end.
Theorem C96_file_refuted :
  exists parse x y z i, (exists s, names x (IStr s)) /\
    (exists d h d' h', input_token_def_with_regex parse x i = Ok (Some (d, h)) /\ token_def_with_regex parse (lower x) i = Ok (Some (d', h')) /\ h <> h' /\ d <> d') /\
    input_token_def_with_regex parse y i = Panic PUnwrapNone /\ (exists r, token_def_with_regex parse (lower y) i = Ok (Some r)) /\
    (exists h d d', input_token_def_with_regex parse z i = Ok (Some (d, h)) /\ token_def_with_regex parse (lower z) i = Ok (Some (d', h)) /\ d <> d').
Proof.
  exists dot_regex, (INamed None (IStr [46%N])), (IStr [43%N]), (IStr [97%N]), 1. split; [exists [46%N]; constructor; constructor; discriminate|].
  split; [do 4 eexists; split; [reflexivity|]; split; [reflexivity|split; discriminate]|].
  split; [reflexivity|]. split; [eexists; reflexivity|]. do 3 eexists. split; [reflexivity|]. split; [reflexivity|discriminate].
Qed.
Print Assumptions C96_file_refuted.

Example C96_nonvacuous : exists x y, names x (INon [65]%N) /\ input_is_terminal x = false /\ input_as_non_terminal x = Some [65]%N /\
  (forall s, ~ names y (IStr s)) /\ input_token_def_with_regex dot_regex y 2 = Ok (Some (TokenDef [97]%N true (Some 2), HLit 97)).
Proof.
  exists (INamed (Some [98]%N) (INamed None (INon [65]%N))), (INamed (Some [98]%N) (IReg [97]%N)).
  split; [repeat constructor; discriminate|]. split; [reflexivity|]. split; [reflexivity|]. split; [|reflexivity].
  intros s H. inversion H as [|? ? ? H']; subst. inversion H'.
Qed.
