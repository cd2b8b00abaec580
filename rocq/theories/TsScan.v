(** Lemmas and tactics to compute the tokens of generated text, and to read them back. *)
From Coq Require Import Ascii String.
From Verif Require Import Base Text TsText TsTextFacts.
Local Open Scope list_scope.

(** ** Scanning *)

Lemma scan_seq s a b l1 s1 l2 s2 : scan s a = (l1, s1) -> scan s1 b = (l2, s2) -> scan s (a ++ b) = (l1 ++ l2, s2).
Proof. intros E1 E2. rewrite (scan_app_eq _ _ _ _ _ E1), E2. reflexivity. Qed.

Definition head_stop (t : list N) : bool := match t with c :: _ => negb (word_char c) | [] => false end.
Lemma scan_word_lit w lit t l1 s1 l2 s2 : head_stop lit = true -> scan SNone lit = (l1, s1) -> scan s1 t = (l2, s2) ->
  scan (SWord w) (lit ++ t) = (TWord w :: l1 ++ l2, s2).
Proof.
  destruct lit as [|c lit]; [discriminate|]. simpl head_stop. intros H E1 E2. cbn [app].
  rewrite flush_word; [|destruct (word_char c); [discriminate|reflexivity]].
  change (c :: lit ++ t) with ((c :: lit) ++ t). rewrite (scan_seq _ _ _ _ _ _ _ E1 E2). reflexivity.
Qed.
Lemma scan_num_lit n lit t l1 s1 l2 s2 : head_stop lit = true -> scan SNone lit = (l1, s1) -> scan s1 t = (l2, s2) ->
  scan (SNum n) (lit ++ t) = (TNum n :: l1 ++ l2, s2).
Proof.
  destruct lit as [|c lit]; [discriminate|]. simpl head_stop. intros H E1 E2. cbn [app].
  rewrite flush_num; [|destruct (word_char c); [discriminate|reflexivity]].
  change (c :: lit ++ t) with ((c :: lit) ++ t). rewrite (scan_seq _ _ _ _ _ _ _ E1 E2). reflexivity.
Qed.
Lemma scan_str_lit q x lit t l1 s1 l2 s2 : hd_error lit = Some q -> scan SNone (tl lit) = (l1, s1) -> scan s1 t = (l2, s2) ->
  scan (SStr q x) (lit ++ t) = (TStr q x :: l1 ++ l2, s2).
Proof.
  destruct lit as [|c lit]; [discriminate|]. simpl. intros H E1 E2. injection H as ->. rewrite N.eqb_refl.
  rewrite (scan_seq _ _ _ _ _ _ _ E1 E2). reflexivity.
Qed.
Lemma scan_dec_then n b l s : scan (SNum n) b = (l, s) -> scan SNone (dec n ++ b) = (l, s).
Proof. intros E. rewrite (scan_app_eq _ _ _ _ _ (scan_dec n)), E. reflexivity. Qed.
Lemma scan_dec_word_then w n b l s : scan (SWord (w ++ dec n)) b = (l, s) -> scan (SWord w) (dec n ++ b) = (l, s).
Proof. intros E. rewrite (scan_app_eq _ _ _ _ _ (dec_word w n)), E. reflexivity. Qed.
Lemma scan_quo_then q x y b l s : unq q x = Some y -> scan (SStr q y) b = (l, s) -> scan (SStr q []) (x ++ b) = (l, s).
Proof. intros Hq E. apply unq_scan in Hq. rewrite (scan_app_eq _ _ _ _ _ Hq), E. reflexivity. Qed.
Lemma scan_word_then x b l s : wordy x -> scan (SWord x) b = (l, s) -> scan SNone (x ++ b) = (l, s).
Proof. intros Hq E. rewrite (scan_app_eq _ _ _ _ _ (scan_word x Hq)), E. reflexivity. Qed.
Lemma scan_more_then w x b l s : Forall (fun c => word_char c = true) x -> scan (SWord (w ++ x)) b = (l, s) -> scan (SWord w) (x ++ b) = (l, s).
Proof. intros Hq E. rewrite (scan_app_eq _ _ _ _ _ (scan_more w x Hq)), E. reflexivity. Qed.

Lemma scan_flat_map {A} (f : A -> list N) (g : A -> list tok) l : (forall x, In x l -> scan SNone (f x) = (g x, SNone)) ->
  scan SNone (flat_map f l) = (flat_map g l, SNone).
Proof.
  induction l as [|x l IH]; intros H; [reflexivity|]. cbn [flat_map].
  apply scan_seq with SNone; [apply H; left; auto|]. apply IH. intros y Hy. apply H. right. auto.
Qed.

(** The comma-separated tokens. *)
Fixpoint tjoin {A} (sep : list A) (l : list (list A)) : list A :=
  match l with [] => [] | [x] => x | x :: l => x ++ sep ++ tjoin sep l end.

(** [piece a l]: [a] reads as the tokens [l] when a character that is not part of a word follows. *)
Definition piece (a : list N) (l : list tok) : Prop :=
  forall t tl s, head_stop t = true -> scan SNone t = (tl, s) -> scan SNone (a ++ t) = (l ++ tl, s).
Lemma piece_closed a l : scan SNone a = (l, SNone) -> piece a l.
Proof. intros E t tl s _ Et. apply scan_seq with SNone; auto. Qed.
Lemma piece_dec n : piece (dec n) [TNum n].
Proof.
  intros t tl s H E. apply scan_dec_then. rewrite <- (app_nil_r t). replace tl with (tl ++ []) by apply app_nil_r.
  exact (scan_num_lit _ _ [] _ _ [] _ H E eq_refl).
Qed.
Lemma piece_word w : wordy w -> piece w [TWord w].
Proof.
  intros Hw t tl s H E. apply scan_word_then; auto. rewrite <- (app_nil_r t). replace tl with (tl ++ []) by apply app_nil_r.
  exact (scan_word_lit _ _ [] _ _ [] _ H E eq_refl).
Qed.
Lemma piece_join {A} (f : A -> list N) (g : A -> list tok) sep sl l : head_stop sep = true -> scan SNone sep = (sl, SNone) ->
  (forall x, In x l -> piece (f x) (g x)) -> piece (join sep (map f l)) (tjoin sl (map g l)).
Proof.
  intros Hs Es H. induction l as [|x l IH]; [intros t tl s _ E; exact E|].
  destruct l as [|y l].
  - apply H. left. auto.
  - intros t tl s Ht E. change (join sep (map f (x :: y :: l))) with (f x ++ sep ++ join sep (map f (y :: l))).
    change (tjoin sl (map g (x :: y :: l))) with (g x ++ sl ++ tjoin sl (map g (y :: l))).
    rewrite <- !app_assoc. apply H; [left; auto| |].
    + destruct sep; [discriminate|exact Hs].
    + apply scan_seq with SNone; auto. apply IH; auto. intros z Hz. apply H. right. auto.
Qed.

Lemma piece_then a la lit t l1 s1 l2 s2 : piece a la -> head_stop lit = true -> scan SNone lit = (l1, s1) -> scan s1 t = (l2, s2) ->
  scan SNone (a ++ lit ++ t) = (la ++ l1 ++ l2, s2).
Proof.
  intros Hp Hs E1 E2. apply Hp; [destruct lit; [discriminate|exact Hs]|]. apply scan_seq with s1; auto.
Qed.

Lemma toks_of t l : scan SNone t = (l, SNone) -> toks t = Some l.
Proof. unfold toks. intros ->. reflexivity. Qed.

Ltac lit_eval := match goal with |- scan ?s ?a = _ => let r := eval vm_compute in (scan s a) in transitivity r; [vm_cast_no_check (eq_refl r)|reflexivity] end.

(** One step of reading; [name] solves side conditions on names. *)
Ltac sc1 name :=
  lazymatch goal with
  | |- scan ?s [] = _ => reflexivity
  | |- scan ?s (tx ?x) = _ => rewrite <- (app_nil_r (tx x))
  | |- scan ?s ((?a ++ ?b) ++ ?c) = _ => rewrite <- (app_assoc a b c)
  | |- scan SNone (tx ?x ++ ?t) = _ => eapply scan_seq; [lit_eval|]
  | |- scan (SWord ?w) (tx ?x ++ ?t) = _ => eapply scan_word_lit; [reflexivity|lit_eval|]
  | |- scan (SNum ?w) (tx ?x ++ ?t) = _ => eapply scan_num_lit; [reflexivity|lit_eval|]
  | |- scan (SStr ?q ?w) (tx ?x ++ ?t) = _ => eapply scan_str_lit; [reflexivity|lit_eval|]
  | |- scan ?s (decn ?n ++ ?t) = _ => change (decn n) with (dec (N.of_nat n))
  | |- scan ?s (decn ?n) = _ => change (decn n) with (dec (N.of_nat n))
  | |- scan ?s (dec ?n) = _ => rewrite <- (app_nil_r (dec n))
  | |- scan SNone (dec ?n ++ ?t) = _ => apply scan_dec_then
  | |- scan (SWord ?w) (dec ?n ++ ?t) = _ => apply scan_dec_word_then
  | |- scan (SStr ?q []) (?x ++ ?t) = _ => eapply scan_quo_then; [name|]
  | |- scan SNone (flat_map ?f ?l ++ ?t) = _ => eapply scan_seq; [eapply scan_flat_map; name|]
  end.
Ltac sc name := repeat (sc1 name).

(** ** Reading *)

Lemma Decls_blank b r l : blank b = true -> Decls r l -> Decls (b :: r) l.
Proof.
  intros Hb H. assert (G : forall ts n v r, Decl ts n v r -> Decl (b :: ts) n v r).
  { intros ts n v r' Hd. destruct b as [| | |c|]; try discriminate; [|apply decl_nl; auto].
    simpl in Hb. apply N.eqb_eq in Hb as ->. apply decl_semi; auto. }
  destruct H as [ts H|ts n v H|ts n v b' r l H Hb' H'].
  - apply ds_end. simpl. rewrite Hb. exact H.
  - apply ds_last. apply G; auto.
  - eapply ds_cons; eauto.
Qed.
Lemma Decls_blanks bs r l : forallb blank bs = true -> Decls r l -> Decls (bs ++ r) l.
Proof.
  induction bs as [|b bs IH]; intros Hb H; auto. simpl in Hb. apply andb_true_iff in Hb as [H1 H2]. simpl. apply Decls_blank; auto.
Qed.

Definition block (ts : list tok) (ds : list (list N * value)) : Prop := forall r l, Decls r l -> Decls (ts ++ r) (ds ++ l).
Lemma block_app a b da db : block a da -> block b db -> block (a ++ b) (da ++ db).
Proof. intros Ha Hb r l H. rewrite <- !app_assoc. auto. Qed.
Lemma block_blank bs : forallb blank bs = true -> block bs [].
Proof. intros Hb r l H. apply Decls_blanks; auto. Qed.
Lemma block_decl ts n v b bs : (forall r, Decl (ts ++ r) n v (b :: bs ++ r)) -> blank b = true -> forallb blank bs = true -> block ts [(n, v)].
Proof. intros H Hb Hbs r l Hr. eapply ds_cons; [apply H|exact Hb|]. apply Decls_blanks; auto. Qed.
Lemma block_flat_map {A} (f : A -> list tok) (d : A -> list N * value) l : (forall x, In x l -> block (f x) [d x]) -> block (flat_map f l) (map d l).
Proof.
  induction l as [|x l IH]; intros H; [apply block_blank; reflexivity|]. cbn [flat_map map]. change (d x :: map d l) with ([d x] ++ map d l).
  apply block_app; [apply H; left; auto|]. apply IH. intros y Hy. apply H. right. auto.
Qed.

Lemma Elems_join {A} (g : A -> list tok) (v : A -> value) l r : (forall x r', In x l -> Val (g x ++ r') (v x) r') ->
  Elems (tjoin [TPun 44] (map g l) ++ TPun 93 :: r) (map v l) r.
Proof.
  induction l as [|x l IH]; intros H; [apply e_end|]. destruct l as [|y l].
  - cbn [map tjoin]. apply e_last. apply H. left. auto.
  - change (tjoin [TPun 44] (map g (x :: y :: l))) with (g x ++ [TPun 44] ++ tjoin [TPun 44] (map g (y :: l))).
    rewrite <- !app_assoc. cbn [map]. eapply e_cons; [apply H; left; auto|]. apply IH. intros z r' Hz. apply H. right. auto.
Qed.

Lemma Decl_not_blank ts n v r : Decl ts n v r -> forallb blank ts = true -> False.
Proof. induction 1; simpl; intros Hb; try discriminate; auto. Qed.
Lemma Decls_det ts l : Decls ts l -> forall l', Decls ts l' -> l = l'.
Proof.
  induction 1 as [ts Hb|ts n v Hd|ts n v b r l Hd Hb Hr IH]; intros l' H'; destruct H' as [ts Hb'|ts n' v' Hd'|ts n' v' b' r' l' Hd' Hb' Hr']; auto;
    try (exfalso; eapply Decl_not_blank; eauto; fail);
    destruct (Decl_det _ _ _ _ Hd _ _ _ Hd') as (-> & -> & E); try discriminate; auto.
  injection E as <- <-. f_equal. apply IH. auto.
Qed.

Lemma Mem_flat_map {A} (g : A -> list tok) (m : A -> key * value) l ts l0 r :
  (forall x ts l0, In x l -> Mem ts l0 r -> Mem (g x ++ ts) (m x :: l0) r) -> Mem ts l0 r -> Mem (flat_map g l ++ ts) (map m l ++ l0) r.
Proof.
  intros H H0. induction l as [|x l IH]; [exact H0|]. cbn [flat_map map]. rewrite <- app_assoc. apply H; [left; auto|].
  apply IH. intros y ts' l' Hy. apply H. right. auto.
Qed.
