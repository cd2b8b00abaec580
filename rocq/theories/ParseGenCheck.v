(** Computable sufficient conditions for the hypotheses about grammar files, for examples. *)
From Coq Require Import Ascii String.
From Verif Require Import Base Text Regex Nfa Dfa Lex Grammar Table LexGrammar Lalr TsText TsModule ParseGenSpec.
Local Open Scope list_scope.

Definition start_b (c : N) : bool := ((c =? 95) || (65 <=? c) && (c <=? 90) || (97 <=? c) && (c <=? 122))%N.
Definition rest_b (c : N) : bool := (start_b c || (48 <=? c) && (c <=? 57))%N.
Definition word_b (s : str) : bool := match s with [] => false | c :: r => start_b c && forallb rest_b r end.
Lemma start_b_ok c : start_b c = true -> ident_start c.
Proof.
  unfold start_b, ident_start. intros H. repeat (apply orb_true_iff in H as [H|H]); try (apply andb_true_iff in H as [H1 H2]; apply N.leb_le in H1, H2; lia).
  apply N.eqb_eq in H. lia.
Qed.
Lemma rest_b_ok c : rest_b c = true -> ident_rest c.
Proof.
  unfold rest_b, ident_rest. intros H. apply orb_true_iff in H as [H|H]; [left; apply start_b_ok; auto|]. right.
  apply andb_true_iff in H as [H1 H2]. apply N.leb_le in H1, H2. lia.
Qed.
Lemma word_b_ok s : word_b s = true -> ident s.
Proof.
  destruct s as [|c s]; [discriminate|]. cbn. intros H. apply andb_true_iff in H as [H1 H2]. split; [apply start_b_ok; auto|].
  apply Forall_forall. rewrite forallb_forall in H2. intros x Hx. apply rest_b_ok; auto.
Qed.
Definition symbol_b (x : isym) : bool := match x with IStr _ | IReg _ => true | INon n => word_b n | _ => false end.
Definition named_b (x : isym) : bool := match x with INamed (Some n) ty => word_b n && symbol_b ty | _ => symbol_b x end.
Definition file_ast_b (ast : list aprod) : bool :=
  match ast with [] => false | _ => true end &&
  forallb (fun p => word_b (ap_name p) && forallb (fun b => match ab_syms b with [] => false | _ => true end && forallb named_b (ab_syms b)) (ap_bodies p)) ast.
Lemma symbol_b_ok x : symbol_b x = true -> file_symbol x.
Proof. destruct x; try discriminate; cbn; auto. apply word_b_ok. Qed.
Lemma named_b_ok x : named_b x = true -> file_named x.
Proof.
  destruct x as [s|[n|] ty|s|s| |]; try discriminate; try (apply (symbol_b_ok _)).
  cbn. intros H. apply andb_true_iff in H as [H1 H2]. split; [apply word_b_ok; auto|apply symbol_b_ok; auto].
Qed.
Lemma file_ast_b_ok ast : file_ast_b ast = true -> file_ast ast.
Proof.
  unfold file_ast_b. intros H. apply andb_true_iff in H as [H0 H]. split; [destruct ast; discriminate|]. rewrite forallb_forall in H.
  intros p Hp. apply H in Hp. apply andb_true_iff in Hp as [H1 H2]. split; [apply word_b_ok; auto|]. rewrite forallb_forall in H2.
  intros b Hb. apply H2 in Hb. apply andb_true_iff in Hb as [H3 H4]. split; [destruct (ab_syms b); discriminate|].
  rewrite forallb_forall in H4. apply Forall_forall. intros x Hx. apply named_b_ok; auto.
Qed.

Definition tame_b (c : list N) : bool := match code_tokens c with Some ts => match level 0 ts with Some O => true | _ => false end | None => false end.
Definition tame_type_b (c : list N) : bool :=
  tame_b c && match code_tokens c with Some ts => forallb (fun t => negb (is_word (tx "type") t) && negb (is_word (tx "module") t)) (outer 0 ts) | None => false end.
Lemma tame_b_ok c : tame_b c = true -> tame c.
Proof.
  unfold tame_b, tame. destruct (code_tokens c) as [ts|]; [|discriminate]. intros H. exists ts. split; auto. destruct (level 0 ts) as [[|]|]; auto; discriminate.
Qed.
Lemma tame_type_b_ok c : tame_type_b c = true -> tame_type c.
Proof.
  unfold tame_type_b. intros H. apply andb_true_iff in H as [H1 H2]. apply tame_b_ok in H1 as (ts & E & L). rewrite E in H2. exists ts. split; auto. split; auto.
  rewrite forallb_forall in H2. intros t Ht. apply H2 in Ht. apply andb_true_iff in Ht as [A B]. split; [destruct (is_word (tx "type") t)|destruct (is_word (tx "module") t)]; auto; discriminate.
Qed.
Definition codes_b (ast : list aprod) : bool := forallb (fun p => tame_type_b (ap_ts p) && forallb (fun b => tame_b (ab_fn b)) (ap_bodies p)) ast.
Lemma codes_b_ok ast : codes_b ast = true -> codes_ok ast.
Proof.
  unfold codes_b. rewrite forallb_forall. intros H p Hp. apply H in Hp. apply andb_true_iff in Hp as [H1 H2]. split; [apply tame_type_b_ok; auto|].
  rewrite forallb_forall in H2. intros b Hb. apply tame_b_ok; auto.
Qed.

Definition quotes_b (g : grammar) : bool :=
  forallb (fun x => match x with Grammar.SStr s | SReg s => match unq 34 s, unq 39 s with Some _, Some _ => true | _, _ => false end | _ => true end) (g_tokens g).
Lemma quotes_b_ok g : quotes_b g = true -> quotes_ok g.
Proof.
  unfold quotes_b. rewrite forallb_forall. intros H s [Hs|Hs]; apply H in Hs; destruct (unq 34 s), (unq 39 s); try discriminate; split; discriminate.
Qed.

Definition kind_b (x : sym) : option (list N) := match x with Grammar.SStr s | SReg s => unq 39 s | SEof => Some (tx "EOF") | _ => None end.
Lemma kind_b_ok x n : token_kind x n <-> kind_b x = Some n.
Proof. destruct x; cbn; try tauto; try (split; [intros []|discriminate]). split; [intros ->; auto|congruence]. Qed.
Fixpoint distinct (l : list (option (list N))) : bool :=
  match l with [] => true | None :: l => distinct l | Some n :: l => negb (existsb (fun o => match o with Some m => eqb m n | None => false end) l) && distinct l end.
Definition kinds_b (g : grammar) : bool := distinct (map kind_b (g_tokens g)).
Lemma distinct_ok l : distinct l = true -> forall i j n, nth_error l i = Some (Some n) -> nth_error l j = Some (Some n) -> i = j.
Proof.
  induction l as [|o l IH]; intros H i j n Hi Hj; [destruct i; discriminate|].
  assert (G : forall k, o = Some n -> nth_error l k = Some (Some n) -> False).
  { intros k -> Hk. cbn [distinct] in H. apply andb_true_iff in H as [H _]. apply negb_true_iff in H. apply nth_error_In in Hk.
    assert (existsb (fun o => match o with Some m => eqb m n | None => false end) l = true); [|congruence].
    apply existsb_exists. exists (Some n). split; auto. apply eqb_refl. }
  assert (HT : distinct l = true) by (destruct o; cbn [distinct] in H; [apply andb_true_iff in H; tauto|auto]).
  destruct i as [|i], j as [|j]; cbn [nth_error] in Hi, Hj; auto.
  - injection Hi as ->. destruct (G j); auto.
  - injection Hj as ->. destruct (G i); auto.
  - f_equal. eapply IH; eauto.
Qed.
Lemma kinds_b_ok g : kinds_b g = true -> kinds_distinct g.
Proof.
  intros H i j x y n Hi Hj Hx Hy. apply kind_b_ok in Hx, Hy. unfold kinds_b in H. unfold get_token in Hi, Hj.
  apply (distinct_ok _ H i j n); rewrite nth_error_map; [rewrite Hi|rewrite Hj]; cbn [option_map]; congruence.
Qed.

Fixpoint strip (a b : list N) : option (list N) :=
  match a, b with [], _ => Some b | x :: a, y :: b => if N.eqb x y then strip a b else None | _, [] => None end.
Lemma strip_app a b : strip a (a ++ b) = Some b.
Proof. induction a as [|x a IH]; [destruct b; reflexivity|]. cbn. rewrite N.eqb_refl. exact IH. Qed.
Definition free_b (ast : list aprod) : bool :=
  forallb (fun p => negb (eqb (ap_name p) (tx "type")) && negb (eqb (ap_name p) (tx "EmitProduction")) &&
                    match strip (tx "Action") (ap_name p) with None => true | Some _ => false end &&
    forallb (fun b => forallb (fun x => match x with INamed (Some n) _ => negb (eqb n (tx "type")) && negb (eqb n (tx "module")) | _ => true end) (ab_syms b)) (ap_bodies p)) ast.
Lemma free_b_ok ast : free_b ast = true -> names_free ast.
Proof.
  unfold free_b. rewrite forallb_forall. intros H.
  assert (G : forall p, In p ast -> ap_name p <> tx "type" /\ ap_name p <> tx "EmitProduction" /\ strip (tx "Action") (ap_name p) = None /\
    forall b n ty, In b (ap_bodies p) -> In (INamed (Some n) ty) (ab_syms b) -> n <> tx "type" /\ n <> tx "module").
  { intros p Hp. apply H in Hp. apply andb_true_iff in Hp as [Hp H4]. apply andb_true_iff in Hp as [Hp H3]. apply andb_true_iff in Hp as [H1 H2].
    apply negb_true_iff in H1, H2. apply eqb_neq in H1, H2. split; auto. split; auto. split; [destruct (strip _ _); auto; discriminate|].
    rewrite forallb_forall in H4. intros b n ty Hb Hx. apply H4 in Hb. rewrite forallb_forall in Hb. apply Hb in Hx.
    apply andb_true_iff in Hx as [A B]. apply negb_true_iff in A, B. apply eqb_neq in A, B. auto. }
  split.
  - intros p Hp. destruct (G p Hp) as (H1 & H2 & H3 & _). split; auto. split; auto. intros k E. rewrite E, strip_app in H3. discriminate.
  - intros p b n ty Hp Hb Hx. destruct (G p Hp) as (_ & _ & _ & H4). eapply H4; eauto.
Qed.
