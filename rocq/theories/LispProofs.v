(** Reading the texts of C77: tokens, and trees of the grammar. *)
From Coq Require Import Ascii String.
From Verif Require Import Base Text Regex LexSpec LexProofs Utf8Spec Utf8Proofs Grammar GrammarSpec TreeFacts EndSpec Lisp LispSpec.
Local Open Scope list_scope.

Definition rint : sym := SReg (tx "[1-9]+[0-9]*").
Definition number (w : list N) : Prop := exists c ds, w = c :: ds /\ (49 <= c <= 57)%N /\ Forall digit ds.

Lemma star_digits h w : h = HRep ZeroOrMore (HClass [(48, 57)%N]) -> Lang h w -> Forall digit w.
Proof.
  intros -> H. remember (HRep ZeroOrMore (HClass [(48, 57)%N])) as h eqn:E.
  induction H; try discriminate; injection E as ->; constructor || idtac.
  apply Forall_app. split; auto. inversion H as [| | rs lo hi c Hin Hc | | | | | | | | | |]; subst. destruct Hin as [E|[]]. injection E as <- <-. repeat constructor; lia.
Qed.
Lemma star_ones h w : h = HRep ZeroOrMore (HClass [(49, 57)%N]) -> Lang h w -> Forall digit w.
Proof.
  intros -> H. remember (HRep ZeroOrMore (HClass [(49, 57)%N])) as h eqn:E.
  induction H; try discriminate; injection E as ->; constructor || idtac.
  apply Forall_app. split; auto. inversion H as [| | rs lo hi c Hin Hc | | | | | | | | | |]; subst. destruct Hin as [E|[]]. injection E as <- <-. repeat constructor; lia.
Qed.
Lemma digits_star w : Forall digit w -> Lang (HRep ZeroOrMore (HClass [(48, 57)%N])) w.
Proof. induction 1 as [|c w Hc _ IH]; [constructor|]. apply (L_star_cons _ [c] w); auto. apply (L_class _ 48 57); [left; auto|exact Hc]. Qed.

Lemma int_lang w : sym_lang lisp_regex rint w <-> number w.
Proof.
  split.
  - intros (h & E & H). injection E as <-.
    inversion H as [| | | | | | | | | | |h hs w1 w2 H1 H2|]; subst. inversion H2 as [| | | | | | | | | | |h hs w3 w4 H3 H4|]; subst.
    inversion H4; subst. rewrite app_nil_r.
    inversion H1 as [| | | | | | |h u v Hu Hv| | | | |]; subst.
    inversion Hu as [| | rs lo hi c Hin Hc | | | | | | | | | |]; subst. destruct Hin as [E|[]]. injection E as <- <-.
    exists c, (v ++ w3). split; auto. split; auto. apply Forall_app. split; [eapply star_ones; eauto|eapply star_digits; eauto].
  - intros (c & ds & -> & Hc & Hd). eexists. split; [reflexivity|].
    apply (L_concat_cons _ _ [c] ds); [apply (L_plus _ [c] []); [apply (L_class _ 49 57); [left; auto|exact Hc]|constructor]|].
    rewrite <- (app_nil_r ds). apply L_concat_cons; [apply digits_star; auto|constructor].
Qed.

(** The parse trees of the grammar. *)
Fixpoint exprs_of (l : list tree) : tree :=
  match l with
  | [] => Node 3 []
  | t :: l' => match l' with [] => Node 3 [t] | _ => Node 2 [t; exprs_of l'] end
  end.
Definition sexpr_of (l : list tree) : tree := Node 1 [Leaf (SStr (tx "(")); exprs_of l; Leaf (SStr (tx ")"))].
Fixpoint tree_of (e : sexp) : tree :=
  match e with
  | XAdd => Node 5 [Leaf (SStr (tx "add"))]
  | XInt _ => Node 6 [Leaf rint]
  | XList es => Node 4 [sexpr_of (map tree_of es)]
  end.

Section SexpInd.
  Variable P : sexp -> Prop.
  Hypothesis Hadd : P XAdd.
  Hypothesis Hint : forall d, P (XInt d).
  Hypothesis Hlist : forall es, Forall P es -> P (XList es).
  Fixpoint sexp_ind' (e : sexp) : P e :=
    match e with
    | XAdd => Hadd
    | XInt d => Hint d
    | XList es => Hlist es ((fix go l : Forall P l := match l with [] => Forall_nil _ | e :: l => Forall_cons _ (sexp_ind' e) (go l) end) es)
    end.
End SexpInd.

Scheme Writes_mut := Minimality for Writes Sort Prop
  with WritesAll_mut := Minimality for WritesAll Sort Prop.
Lemma writes_both (P : sexp -> list N -> Prop) (Q : list sexp -> list N -> Prop) :
  P XAdd (tx "add") -> (forall c ds, (49 <= c <= 57)%N -> Forall digit ds -> P (XInt (c :: ds)) (c :: ds)) ->
  (forall es a w b, Forall white a -> WritesAll es w -> Q es w -> Forall white b -> P (XList es) (tx "(" ++ a ++ w ++ b ++ tx ")")) ->
  (forall e w, Writes e w -> P e w -> Q [e] w) ->
  (forall e u a e' es w, Writes e u -> P e u -> Forall white a -> WritesAll (e' :: es) w -> Q (e' :: es) w -> (a = [] -> is_int e = true -> is_int e' = false) ->
     Q (e :: e' :: es) (u ++ a ++ w)) ->
  (forall e w, Writes e w -> P e w) /\ (forall es w, WritesAll es w -> Q es w).
Proof. intros H1 H2 H3 H4 H5. split; [apply (Writes_mut P Q)|apply (WritesAll_mut P Q)]; auto. Qed.

Lemma writes_head e w : Writes e w -> exists c w', w = c :: w' /\ (digit c -> is_int e = true) /\ ~ white c /\ c <> 41%N /\ (is_int e = true -> digit c).
Proof.
  intros [|c ds Hc _|es a v b _ _ _].
  - exists 97%N, (tx "dd"). split; auto. split; [unfold digit; lia|]. split; [unfold white; lia|]. split; [lia|discriminate].
  - exists c, ds. split; auto. split; auto. split; [unfold white; lia|]. split; [lia|unfold digit; lia].
  - exists 40%N, (a ++ v ++ b ++ tx ")"). split; auto. split; [unfold digit; lia|]. split; [unfold white; lia|]. split; [lia|discriminate].
Qed.
Lemma writes_all_head es w : WritesAll es w -> exists e es' c w', es = e :: es' /\ w = c :: w' /\ (digit c -> is_int e = true) /\ ~ white c /\ c <> 41%N /\ (is_int e = true -> digit c).
Proof.
  intros [e v H|e u a e' es' v H _ _ _]; destruct (writes_head _ _ H) as (c & w' & -> & H1 & H2); [exists e, [], c, w'|exists e, (e' :: es'), c, (w' ++ a ++ v)]; auto.
Qed.

Section Lisp.
  Variable g : grammar.
  Hypothesis Hsyms : lex_syms g = [SStr (tx "("); SStr (tx ")"); SStr (tx "add"); rint].
  Local Notation acc := (is_sym lisp_regex g).
  Local Notation live := (begins lisp_regex g).
  Local Notation Tk := (Tokenize live acc).

  Lemma acc_iff u i : acc u i <-> (u = tx "(" /\ i = 0) \/ (u = tx ")" /\ i = 1) \/ (u = tx "add" /\ i = 2) \/ (number u /\ i = 3).
  Proof using Hsyms.
    unfold is_sym. rewrite Hsyms. split.
    - intros ((x & Hx & Hl) & _). destruct i as [|[|[|[|i]]]]; cbn in Hx; try injection Hx as <-; cbn [sym_lang] in Hl; auto 10.
      + right. right. right. split; auto. apply int_lang, Hl.
      + destruct i; discriminate.
    - assert (Hn : forall j x (P : Prop), j < 3 -> nth_error [SStr (tx "("); SStr (tx ")"); SStr (tx "add"); rint] j = Some x -> sym_lang lisp_regex x u ->
        u = tx "(" \/ u = tx ")" \/ u = tx "add").
      { intros j x _ Hj Hx Hl. destruct j as [|[|[|j]]]; [injection Hx as <-; cbn in Hl; auto..|lia]. }
      intros [[-> ->]|[[-> ->]|[[-> ->]|[Hu ->]]]].
      + split; [eexists; split; [reflexivity|reflexivity]|]. intros j x Hj. lia.
      + split; [eexists; split; [reflexivity|reflexivity]|]. intros j x Hj Hx Hl. destruct j; [injection Hx as <-; discriminate Hl|lia].
      + split; [eexists; split; [reflexivity|reflexivity]|]. intros j x Hj Hx Hl. destruct j as [|[|j]]; [injection Hx as <-; discriminate Hl..|lia].
      + split; [eexists; split; [reflexivity|apply int_lang, Hu]|]. intros j x Hj Hx Hl.
        destruct Hu as (c & ds & -> & Hc & _). destruct (Hn j x True Hj Hx Hl) as [E|[E|E]]; injection E as E _; unfold tx in E; cbn in E; lia.
  Qed.

  Lemma live_iff u : live u <-> u = [] \/ u = tx "(" \/ u = tx ")" \/ u = tx "a" \/ u = tx "ad" \/ u = tx "add" \/ number u.
  Proof using Hsyms.
    unfold begins. rewrite Hsyms. split.
    - intros (x & v & Hx & Hl). cbn in Hx. destruct Hx as [<-|[<-|[<-|[<-|[]]]]].
      + cbn in Hl. destruct u as [|a u]; auto. injection Hl as -> E. destruct u; [auto|discriminate].
      + cbn in Hl. destruct u as [|a u]; auto. injection Hl as -> E. destruct u; [auto|discriminate].
      + cbn in Hl. destruct u as [|a [|b [|c u]]]; auto; [injection Hl as ->; auto 10|injection Hl as -> ->; auto 10|].
        injection Hl as -> -> -> E. destruct u; [auto 10|discriminate].
      + apply int_lang in Hl as (c & ds & E & Hc & Hd). destruct u as [|a u]; auto. injection E as -> <-. apply Forall_app in Hd as [Hd _].
        repeat right. exists c, u. auto.
    - intros [->|[->|[->|[->|[->|[->|Hu]]]]]].
      + exists (SStr (tx "(")), (tx "("). cbn. auto.
      + exists (SStr (tx "(")), []. cbn. auto.
      + exists (SStr (tx ")")), []. cbn. auto.
      + exists (SStr (tx "add")), (tx "dd"). cbn. auto 10.
      + exists (SStr (tx "add")), (tx "d"). cbn. auto 10.
      + exists (SStr (tx "add")), []. cbn. auto 10.
      + exists rint, []. rewrite app_nil_r. split; [cbn; auto 10|apply int_lang, Hu].
  Qed.

  Lemma acc_det u i j : acc u i -> acc u j -> i = j.
  Proof.
    intros [(x & Hx & Hvx) Hi] [(y & Hy & Hvy) Hj].
    destruct (Nat.lt_trichotomy i j) as [H|[H|H]]; auto; exfalso; [exact (Hj i x H Hx Hvx)|exact (Hi j y H Hy Hvy)].
  Qed.

  Lemma number_app u v : number u -> number (u ++ v) -> Forall digit v.
  Proof. intros (c & ds & -> & _ & _) (c' & ds' & E & _ & Hd). injection E as -> <-. apply Forall_app in Hd. apply Hd. Qed.
  Lemma acc_live u i : acc u i -> live u.
  Proof using Hsyms. rewrite acc_iff, live_iff. intros [[-> _]|[[-> _]|[[-> _]|[H _]]]]; auto 10. Qed.

  Definition no_digit (s : list N) : Prop := match s with [] => True | c :: _ => ~ digit c end.

  (** A text of a token followed by something it does not go on with. *)
  Lemma read_token pos u i v ts r : acc u i -> (number u -> no_digit v) -> Tk (pos + length u) v ts r -> Tk pos (u ++ v) ((pos, i, u) :: ts) r.
  Proof using Hsyms.
    intros Ha Hv HT.
    assert (Hne : u <> []) by (intros ->; apply acc_iff in Ha as [[E _]|[[E _]|[[E _]|[(c & ds & E & _) _]]]]; discriminate E).
    assert (Hlong : forall c w, v = c :: w -> forall x, ~ live (u ++ c :: x)).
    { intros c w -> x Hl. apply live_iff in Hl. apply acc_iff in Ha as [[-> _]|[[-> _]|[[-> _]|[Hn _]]]].
      1-3: destruct Hl as [E|[E|[E|[E|[E|[E|(c' & ds & E & Hc & _)]]]]]]; try discriminate E; injection E as <-; unfold tx in Hc; cbn in Hc; lia.
      specialize (Hv Hn). cbn in Hv. assert (Hd : number (u ++ c :: x) -> False).
      { intros Hx. apply (number_app _ _ Hn) in Hx. inversion Hx; auto. }
      destruct Hn as (c' & ds & -> & Hc & _).
      destruct Hl as [E|[E|[E|[E|[E|[E|Hl]]]]]]; auto; try discriminate E; injection E as E _; unfold tx in E; cbn in E; lia. }
    assert (Hlg : longest acc u i (u ++ v)).
    { split; auto. split; auto. intros u' v' i' E Hu'. apply app_eq_app in E as (l & [[-> ->]|[-> ->]]); [rewrite app_length; lia|].
      destruct l as [|c l]; [rewrite app_nil_r; lia|]. exfalso. apply (Hlong c (l ++ v') eq_refl l). eapply acc_live; eauto. }
    destruct v as [|c v].
    - inversion HT as [|? u' v' ? ? ? Hu'|? u' v' ? Hu'| |]; subst; try (exfalso; destruct u'; [apply Hu'; auto|discriminate]).
      apply TkLast; auto. rewrite app_nil_r. eapply acc_live; eauto.
    - apply TkTok; auto. eapply Hlong; eauto.
  Qed.

  Lemma white_dead c : white c -> ~ live [c].
  Proof using Hsyms.
    intros Hc Hl. apply live_iff in Hl as [E|[E|[E|[E|[E|[E|(c' & ds & E & Hd & _)]]]]]]; try discriminate E; injection E as E; unfold tx in E; cbn in E;
      destruct Hc; subst; try discriminate; lia.
  Qed.
  Lemma white_no_match c v : white c -> no_match acc (c :: v).
  Proof using Hsyms.
    intros Hc u w i E Hu Ha. destruct u as [|c' u]; [auto|]. injection E as <- _. apply acc_iff in Ha as [[E _]|[[E _]|[[E _]|[(c' & ds & E & Hd & _) _]]]];
      injection E as E _; unfold tx in E; cbn in E; destruct Hc; subst; try discriminate; lia.
  Qed.
  Lemma read_white a : Forall white a -> forall pos s ts r, Tk (pos + length a) s ts r -> Tk pos (a ++ s) ts r.
  Proof using Hsyms.
    induction 1 as [|c a Hc _ IH]; intros pos s ts r HT; cbn [app length] in *; [rewrite Nat.add_0_r in HT; exact HT|].
    apply TkSkip; [split; [auto|apply white_dead; auto]|apply white_no_match; auto|]. apply IH. rewrite Nat.add_succ_r in HT. exact HT.
  Qed.

  (** The first token of a text, if there is one. *)
  Lemma first_token pos s t ts r : Tk pos s (t :: ts) r -> exists a u i v, s = a ++ u ++ v /\ Forall white a /\ acc u i /\ (number u -> no_digit v) /\ t = (pos + length a, i, u) /\ Tk (pos + length a + length u) v ts r.
  Proof using Hsyms.
    intros H. remember (t :: ts) as tt eqn:E. revert t ts E.
    assert (Hd : forall u i v, longest acc u i (u ++ v) -> number u -> no_digit v).
    { intros u i v (Hu & Ha & Hm) Hn. destruct v as [|c v]; [exact I|]. intros Hc.
      assert (Hn' : number (u ++ [c])).
      { destruct Hn as (x & ds & -> & Hx & Hds). exists x, (ds ++ [c]). split; auto. split; auto. apply Forall_app. auto. }
      specialize (Hm (u ++ [c]) v 3). rewrite <- app_assoc in Hm. specialize (Hm eq_refl). rewrite app_length in Hm. cbn in Hm.
      assert (acc (u ++ [c]) 3) by (apply acc_iff; auto 10). specialize (Hm H0). lia. }
    induction H as [pos|pos u v a ts r Hu Hn H IH|pos u v a Hu Hn|pos c v ts r Hc Hn H IH|pos c v Hn Hc]; intros t ts' E; try discriminate E.
    - injection E as <- <-. exists [], u, a, v. cbn [app length]. rewrite Nat.add_0_r. split; auto. split; auto. split; [apply Hu|]. split; [eauto|]. split; auto.
    - injection E as <- <-. exists [], u, a, v. cbn [app length]. rewrite Nat.add_0_r. split; auto. split; auto. split; [apply Hu|]. split; [eauto|]. split; auto.
      enough (v = []) as -> by constructor. destruct v as [|c v]; auto. exfalso. destruct Hu as (Hne & Ha & Hm).
      apply live_iff in Hn. apply acc_iff in Ha as [[-> _]|[[-> _]|[[-> _]|[Hnu _]]]].
      1-3: destruct Hn as [E|[E|[E|[E|[E|[E|(c' & ds & E & Hc & _)]]]]]]; try discriminate E; injection E as <-; unfold tx in Hc; cbn in Hc; lia.
      assert (Hb : number (u ++ c :: v) -> False).
      { intros Hb. specialize (Hm (u ++ c :: v) [] 3). rewrite app_nil_r in Hm. specialize (Hm eq_refl (proj2 (acc_iff (u ++ c :: v) 3) (or_intror (or_intror (or_intror (conj Hb eq_refl)))))). rewrite app_length in Hm. cbn in Hm. lia. }
      destruct Hnu as (c' & ds & -> & Hc & _).
      destruct Hn as [E|[E|[E|[E|[E|[E|Hl]]]]]]; auto; try discriminate E; injection E as E _; unfold tx in E; cbn in E; lia.
    - destruct (IH _ _ E) as (a & u & i & w & -> & Ha & Hu & Hv & -> & HT). exists (c :: a), u, i, w. cbn [app length] in *. rewrite Nat.add_succ_r in *.
      split; auto. split; [constructor; [apply Hc|auto]|]. auto.
  Qed.

  (** No token: what is left is not looked at. *)
  Lemma no_token pos s r : Tk pos s [] r <-> exists b, s = b ++ r /\ Forall white b /\ unreadable r.
  Proof using Hsyms.
    assert (Hun : forall c v, no_match acc (c :: v) /\ ~ skippable live c <-> unreadable (c :: v)).
    { intros c v. split.
      - intros [Hn Hs]. assert (Hm : forall u w i, c :: v = u ++ w -> acc u i -> False).
        { intros u w i E Ha. eapply (Hn u w i); eauto. intros ->. apply acc_iff in Ha as [[E' _]|[[E' _]|[[E' _]|[(x & ds & E' & _) _]]]]; discriminate E'. }
        repeat split.
        + intros ->. apply (Hm (tx "(") v 0); [reflexivity|apply acc_iff; auto].
        + intros ->. apply (Hm (tx ")") v 1); [reflexivity|apply acc_iff; auto].
        + intros Hc. apply (Hm [c] v 3); [reflexivity|apply acc_iff; repeat right; split; auto]. exists c, []. auto.
        + intros Hw. apply Hs. split; auto. apply white_dead. auto.
        + intros w E. apply (Hm (tx "add") w 2); auto. apply acc_iff. auto.
      - intros (H1 & H2 & H3 & H4 & H5). split; [|intros [Hw _]; auto]. intros u w i E Hu Ha.
        apply acc_iff in Ha as [[-> _]|[[-> _]|[[-> _]|[(x & ds & -> & Hx & _) _]]]]; [injection E as -> _; auto..|exact (H5 _ E)|injection E as -> _; auto]. }
    split.
    - intros H. remember (@nil (nat * nat * list N)) as tt eqn:E. revert E. induction H as [pos|pos u v a ts r Hu Hn H IH|pos u v a Hu Hn|pos c v ts r Hc Hn H IH|pos c v Hn Hc]; intros E; try discriminate E.
      + exists []. split; auto. split; [auto|exact I].
      + destruct (IH E) as (b & -> & Hb & Hr). exists (c :: b). split; auto. split; auto. constructor; auto. apply Hc.
      + exists []. split; auto. split; auto. apply Hun. auto.
    - intros (b & -> & Hb & Hr). apply read_white; auto. destruct r as [|c v]; [constructor|]. apply Hun in Hr as [Hn Hs]. apply TkStop; auto.
  Qed.
  (** *** Trees *)
  Hypothesis Hprods : map (fun pr => (p_name pr, p_syms pr)) (g_prods g) =
    [(tx "SExpr'", [SNon (tx "SExpr")]); (tx "SExpr", [SStr (tx "("); SNon (tx "Exprs"); SStr (tx ")")]);
     (tx "Exprs", [SNon (tx "Expr"); SNon (tx "Exprs")]); (tx "Exprs", [SNon (tx "Expr")]);
     (tx "Expr", [SNon (tx "SExpr")]); (tx "Expr", [SStr (tx "add")]); (tx "Expr", [rint])].

  Lemma prod_at p pr : nth_error (g_prods g) p = Some pr -> nth_error (map (fun pr => (p_name pr, p_syms pr)) (g_prods g)) p = Some (p_name pr, p_syms pr).
  Proof. intros H. rewrite nth_error_map, H. reflexivity. Qed.
  Lemma prod_of p n b : nth_error (map (fun pr => (p_name pr, p_syms pr)) (g_prods g)) p = Some (n, b) ->
    exists pr, nth_error (g_prods g) p = Some pr /\ p_name pr = n /\ p_syms pr = b.
  Proof. rewrite nth_error_map. destruct (nth_error (g_prods g) p) as [pr|]; [|discriminate]. intros E. injection E as <- <-. eauto. Qed.

  Local Notation K := (fun (x : nat * nat * list N) s => nth_error (lex_syms g) (snd (fst x)) = Some s).

  Definition Reads (ys : list sym) (Q : list N -> list (list N) -> list N -> Prop) : Prop :=
    forall pos s ts r l, Tk pos s ts r -> Forall2 K ts (ys ++ l) ->
    exists a w s' ts1 ts2, s = a ++ w ++ s' /\ Forall white a /\ ts = ts1 ++ ts2 /\ Forall2 K ts2 l /\ Tk (pos + length a + length w) s' ts2 r /\ Q w (map snd ts1) s'.

  Lemma reads_leaf x : Reads [x] (fun w us s' => us = [w] /\ (exists i, nth_error (lex_syms g) i = Some x /\ acc w i) /\ (number w -> no_digit s')).
  Proof using Hsyms.
    intros pos s ts r l HT HF. cbn [app] in HF. inversion HF as [|t ? ts2 ? Ht HF']; subst. destruct (first_token _ _ _ _ _ HT) as (a & u & i & v & -> & Ha & Hu & Hv & -> & HT').
    cbn [fst snd] in Ht. exists a, u, v, [(pos + length a, i, u)], ts2. split; auto. split; auto. split; auto. split; auto. split; auto.
    split; auto. split; eauto.
  Qed.
  Lemma leaf_text x w : (exists i, nth_error (lex_syms g) i = Some x /\ acc w i) -> sym_lang lisp_regex x w.
  Proof. intros (i & Hi & ((y & Hy & Hl) & _)). congruence. Qed.
  Lemma reads_app ys zs Q R : Reads ys Q -> Reads zs R ->
    Reads (ys ++ zs) (fun w us s' => exists w1 b w2 us1 us2, w = w1 ++ b ++ w2 /\ us = us1 ++ us2 /\ Forall white b /\ Q w1 us1 (b ++ w2 ++ s') /\ R w2 us2 s').
  Proof.
    intros HQ HR pos s ts r l HT HF. rewrite <- app_assoc in HF.
    destruct (HQ _ _ _ _ _ HT HF) as (a & w1 & s1 & ts1 & ts2 & -> & Ha & -> & HF2 & HT2 & H1).
    destruct (HR _ _ _ _ _ HT2 HF2) as (b & w2 & s2 & ts3 & ts4 & -> & Hb & -> & HF3 & HT3 & H2).
    exists a, (w1 ++ b ++ w2), s2, (ts1 ++ ts3), ts4. rewrite <- !app_assoc. split; auto. split; auto. split; auto. split; auto.
    split; [replace (pos + length a + length (w1 ++ b ++ w2)) with (pos + length a + length w1 + length b + length w2) by (rewrite !app_length; lia); auto|].
    exists w1, b, w2, (map snd ts1), (map snd ts3). rewrite map_app. auto 10.
  Qed.
  Lemma reads_weaken ys (Q R : list N -> list (list N) -> list N -> Prop) : (forall w us s', Q w us s' -> R w us s') -> Reads ys Q -> Reads ys R.
  Proof.
    intros H HQ pos s ts r l HT HF. destruct (HQ _ _ _ _ _ HT HF) as (a & w & s' & ts1 & ts2 & H1 & H2 & H3 & H4 & H5 & H6).
    exists a, w, s', ts1, ts2. auto 10.
  Qed.

  Definition QE tr (w : list N) us (s' : list N) : Prop := exists e, tr = tree_of e /\ us = texts e /\ Writes e w /\ (is_int e = true -> no_digit s').
  Definition QL tr (w : list N) us (s' : list N) : Prop := exists es, tr = exprs_of (map tree_of es) /\ us = flat_map texts es /\ WritesAll es w.
  Definition QS tr (w : list N) us (s' : list N) : Prop := exists es, tr = sexpr_of (map tree_of es) /\ us = texts (XList es) /\ Writes (XList es) w.

  Lemma read_tree tr : tree_ok g tr ->
    (root g tr = Some (SNon (tx "Expr")) -> Reads (yield tr) (QE tr)) /\
    (root g tr = Some (SNon (tx "Exprs")) -> Reads (yield tr) (QL tr)) /\
    (root g tr = Some (SNon (tx "SExpr")) -> Reads (yield tr) (QS tr)).
  Proof using Hsyms Hprods.
    induction tr as [x|p ts IH] using tree_ind'; intros Hok.
    - apply tree_ok_leaf in Hok. cbn [root]. split; [|split]; intros E; injection E as ->; exfalso; eapply Hok; reflexivity.
    - apply tree_ok_node in Hok as (pr & Hp & Hts & Hm). cbn [root]. rewrite Hp.
      assert (Hleaf : forall t x, tree_ok g t -> root g t = Some x -> terminal x -> t = Leaf x).
      { intros [y|q us] x Ht Hr Hx; cbn [root] in Hr; [injection Hr as ->; auto|]. destruct (nth_error (g_prods g) q); [|discriminate]. injection Hr as <-. exfalso. eapply Hx. reflexivity. }
      pose proof (prod_at _ _ Hp) as Hq. rewrite Hprods in Hq.
      destruct p as [|[|[|[|[|[|[|p]]]]]]]; [..|destruct p; discriminate Hq]; injection Hq as E1 E2; rewrite <- E1; rewrite <- E2 in Hm; clear E1 E2 pr Hp.
      + split; [|split]; intros E; discriminate E.
      + split; [intros E; discriminate E|]. split; [intros E; discriminate E|]. intros _.
        destruct ts as [|t1 [|t2 [|t3 [|t4 ts]]]]; try discriminate Hm. injection Hm as M1 M2 M3.
        inversion Hts as [|? ? O1 Hts1]; subst. inversion Hts1 as [|? ? O2 Hts2]; subst. inversion Hts2 as [|? ? O3 _]; subst.
        apply (Hleaf t1) in M1; [|auto|discriminate]. apply (Hleaf t3) in M3; [|auto|discriminate]. subst t1 t3.
        inversion IH as [|? ? _ IH1]; subst. inversion IH1 as [|? ? I2 _]; subst. apply (proj1 (proj2 (I2 O2))) in M2.
        cbn [yield flat_map]. eapply reads_weaken; [|exact (reads_app _ _ _ _ (reads_leaf (SStr (tx "("))) (reads_app _ _ _ _ M2 (reads_leaf (SStr (tx ")")))))].
        intros w us s' (w1 & b & w2 & us1 & us2 & -> & -> & Hb & (-> & H1 & _) & w3 & c & w4 & us3 & us4 & -> & -> & Hc & (es & -> & -> & Hes) & -> & H4 & _).
        apply leaf_text in H1. apply leaf_text in H4. cbn [sym_lang] in H1, H4. subst w1 w4.
        exists es. split; auto. split; auto. constructor; auto.
      + split; [intros E; discriminate E|]. split; [|intros E; discriminate E]. intros _.
        destruct ts as [|t1 [|t2 [|t3 ts]]]; try discriminate Hm. injection Hm as M1 M2.
        inversion Hts as [|? ? O1 Hts1]; subst. inversion Hts1 as [|? ? O2 _]; subst.
        inversion IH as [|? ? I1 IH1]; subst. inversion IH1 as [|? ? I2 _]; subst. apply (proj1 (I1 O1)) in M1. apply (proj1 (proj2 (I2 O2))) in M2.
        cbn [yield flat_map]. rewrite app_nil_r. eapply reads_weaken; [|exact (reads_app _ _ _ _ M1 M2)].
        intros w us s' (w1 & b & w2 & us1 & us2 & -> & -> & Hb & (e & -> & -> & He & Hd) & (es & -> & -> & Hes)).
        destruct (writes_all_head _ _ Hes) as (e' & es' & c & w' & -> & -> & _ & _ & _ & Hc).
        exists (e :: e' :: es'). split; auto. split; auto. constructor; auto. intros -> Hi. destruct (is_int e'); auto. exfalso. apply (Hd Hi). cbn. auto.
      + split; [intros E; discriminate E|]. split; [|intros E; discriminate E]. intros _.
        destruct ts as [|t1 [|t2 ts]]; try discriminate Hm. injection Hm as M1. inversion Hts as [|? ? O1 _]; subst. inversion IH as [|? ? I1 _]; subst. apply (proj1 (I1 O1)) in M1.
        cbn [yield flat_map]. rewrite app_nil_r. eapply reads_weaken; [|exact M1]. intros w us s' (e & -> & -> & He & _). exists [e]. cbn [map exprs_of flat_map]. rewrite app_nil_r.
        split; auto. split; auto. constructor. auto.
      + split; [|split; intros E; discriminate E]. intros _.
        destruct ts as [|t1 [|t2 ts]]; try discriminate Hm. injection Hm as M1. inversion Hts as [|? ? O1 _]; subst. inversion IH as [|? ? I1 _]; subst. apply (proj2 (proj2 (I1 O1))) in M1.
        cbn [yield flat_map]. rewrite app_nil_r. eapply reads_weaken; [|exact M1]. intros w us s' (es & -> & -> & He). exists (XList es). split; auto. split; auto. split; auto. discriminate.
      + split; [|split; intros E; discriminate E]. intros _.
        destruct ts as [|t1 [|t2 ts]]; try discriminate Hm. injection Hm as M1. inversion Hts as [|? ? O1 _]; subst. apply (Hleaf t1) in M1; [|auto|discriminate]. subst t1.
        eapply reads_weaken; [|exact (reads_leaf (SStr (tx "add")))]. intros w us s' (-> & H1 & _). apply leaf_text in H1. cbn [sym_lang] in H1. subst w.
        exists XAdd. split; auto. split; auto. split; [constructor|discriminate].
      + split; [|split; intros E; discriminate E]. intros _.
        destruct ts as [|t1 [|t2 ts]]; try discriminate Hm. injection Hm as M1. inversion Hts as [|? ? O1 _]; subst. apply (Hleaf t1) in M1; [|auto|discriminate]. subst t1.
        eapply reads_weaken; [|exact (reads_leaf rint)]. intros w us s' (-> & H1 & Hd). apply leaf_text in H1. apply int_lang in H1.
        exists (XInt w). split; auto. split; auto. split; auto. destruct H1 as (c & ds & -> & Hc & Hds). constructor; auto.
  Qed.

  (** *** Writing and reading back *)
  Lemma tree_of_ok : forall e, (exists w, Writes e w) -> tree_ok g (tree_of e) /\ root g (tree_of e) = Some (SNon (tx "Expr")).
  Proof using Hprods.
    assert (HP : forall p n b ts, nth_error [(tx "SExpr'", [SNon (tx "SExpr")]); (tx "SExpr", [SStr (tx "("); SNon (tx "Exprs"); SStr (tx ")")]);
     (tx "Exprs", [SNon (tx "Expr"); SNon (tx "Exprs")]); (tx "Exprs", [SNon (tx "Expr")]);
     (tx "Expr", [SNon (tx "SExpr")]); (tx "Expr", [SStr (tx "add")]); (tx "Expr", [rint])] p = Some (n, b) ->
       Forall (tree_ok g) ts -> map (root g) ts = map Some b -> tree_ok g (Node p ts) /\ root g (Node p ts) = Some (SNon n)).
    { intros p n b ts Hp Hts Hm. rewrite <- Hprods in Hp. destruct (prod_of _ _ _ Hp) as (pr & Hpr & <- & <-). cbn [root]. rewrite Hpr. split; auto. econstructor; eauto. }
    assert (Hlf : forall x, terminal x -> tree_ok g (Leaf x)) by (intros; constructor; auto).
    enough (H : (forall e w, Writes e w -> tree_ok g (tree_of e) /\ root g (tree_of e) = Some (SNon (tx "Expr"))) /\
      (forall es w, WritesAll es w -> tree_ok g (exprs_of (map tree_of es)) /\ root g (exprs_of (map tree_of es)) = Some (SNon (tx "Exprs")))) by (intros e [w Hw]; eapply H; eauto).
    apply writes_both.
    - apply (HP 5 _ _ _ eq_refl); auto. repeat constructor. discriminate.
    - intros c ds _ _. apply (HP 6 _ _ _ eq_refl); auto. repeat constructor. discriminate.
    - intros es a w b _ _ [H1 H2] _. destruct (HP 1 _ _ [Leaf (SStr (tx "(")); exprs_of (map tree_of es); Leaf (SStr (tx ")"))] eq_refl) as [H3 H4].
      + repeat constructor; auto; discriminate.
      + cbn [map]. rewrite H2. reflexivity.
      + apply (HP 4 _ _ [sexpr_of (map tree_of es)] eq_refl); auto. cbn [map]. unfold sexpr_of. rewrite H4. reflexivity.
    - intros e w _ [H1 H2]. apply (HP 3 _ _ [tree_of e] eq_refl); auto. cbn [map]. rewrite H2. reflexivity.
    - intros e u a e' es w _ [H1 H2] _ _ [H3 H4] _. apply (HP 2 _ _ [tree_of e; exprs_of (map tree_of (e' :: es))] eq_refl); auto. cbn [map] in *. rewrite H2, H4. reflexivity.
  Qed.

  Lemma list_tree_ok es w : Writes (XList es) w -> tree_ok g (sexpr_of (map tree_of es)) /\ root g (sexpr_of (map tree_of es)) = Some (SNon (tx "SExpr")).
  Proof using Hprods.
    intros H. destruct (tree_of_ok (XList es)) as [Ho _]; eauto. cbn [tree_of] in Ho. apply tree_ok_node in Ho as (pr & Hp & Hts & Hm).
    pose proof (prod_at _ _ Hp) as Hq. rewrite Hprods in Hq. injection Hq as E1 E2. rewrite <- E2 in Hm. injection Hm as Hm. inversion Hts; auto.
  Qed.

  Lemma write_token u i x v : acc u i -> nth_error (lex_syms g) i = Some x -> (number u -> no_digit v) -> forall pos ts r, Tk (pos + length u) v ts r ->
    exists ts1, Tk pos (u ++ v) (ts1 ++ ts) r /\ map snd ts1 = [u] /\ Forall2 K ts1 [x].
  Proof using Hsyms. intros Ha Hx Hv pos ts r HT. exists [(pos, i, u)]. split; [apply read_token; auto|]. split; auto. Qed.

  Lemma yield_exprs es : es <> [] -> yield (exprs_of (map tree_of es)) = flat_map (fun e => yield (tree_of e)) es.
  Proof.
    induction es as [|e [|e' es] IH]; intros H; [congruence| |]; cbn [map exprs_of yield flat_map] in *; rewrite ?app_nil_r; auto.
    f_equal. rewrite <- IH by discriminate. reflexivity.
  Qed.

  Lemma head_no_digit e w s : Writes e w -> is_int e = false -> no_digit (w ++ s).
  Proof. intros H Hi. destruct (writes_head _ _ H) as (c & w' & -> & Hc & _). cbn. intros Hd. rewrite Hc in Hi; [discriminate|auto]. Qed.
  Lemma white_no_digit a s : Forall white a -> (a = [] -> no_digit s) -> no_digit (a ++ s).
  Proof. intros [|c a' Hc _] H; [apply H; auto|]. cbn. unfold digit. destruct Hc; lia. Qed.

  Lemma write_read : (forall e w, Writes e w -> forall s, (is_int e = true -> no_digit s) -> forall pos ts r, Tk (pos + length w) s ts r ->
      exists ts1, Tk pos (w ++ s) (ts1 ++ ts) r /\ map snd ts1 = texts e /\ Forall2 K ts1 (yield (tree_of e))) /\
    (forall es w, WritesAll es w -> forall s, no_digit s -> forall pos ts r, Tk (pos + length w) s ts r ->
      exists ts1, Tk pos (w ++ s) (ts1 ++ ts) r /\ map snd ts1 = flat_map texts es /\ Forall2 K ts1 (yield (exprs_of (map tree_of es)))).
  Proof using Hsyms.
    assert (Hnum : forall u, number u -> u <> tx "(" /\ u <> tx ")" /\ u <> tx "add").
    { intros u (c & ds & -> & Hc & _). repeat split; intros E; injection E as -> _; unfold tx in Hc; cbn in Hc; lia. }
    apply writes_both.
    - intros s _ pos ts r HT. apply (write_token (tx "add") 2); auto; [apply acc_iff; auto|rewrite Hsyms; reflexivity|]. intros H. apply Hnum in H. tauto.
    - intros c ds Hc Hds s Hs pos ts r HT. apply (write_token (c :: ds) 3); auto; [|rewrite Hsyms; reflexivity]. apply acc_iff. repeat right. split; auto. exists c, ds. auto.
    - intros es a w b Ha Hes IH Hb s _ pos ts r HT. rewrite !app_length in HT. cbn [tree_of yield flat_map sexpr_of texts].
      destruct (write_token (tx ")") 1 (SStr (tx ")")) s ltac:(apply acc_iff; auto) ltac:(rewrite Hsyms; reflexivity) ltac:(intros H; apply Hnum in H; tauto)
        (pos + length (tx "(") + length a + length w + length b) ts r) as (t3 & HT3 & E3 & F3); [rewrite <- !Nat.add_assoc; exact HT|].
      apply (read_white b Hb) in HT3.
      destruct (IH _ (white_no_digit b (tx ")" ++ s) Hb ltac:(intros _; cbn; unfold digit; lia)) _ _ _ HT3) as (t2 & HT2 & E2 & F2).
      apply (read_white a Ha) in HT2.
      destruct (write_token (tx "(") 0 (SStr (tx "(")) (a ++ w ++ b ++ tx ")" ++ s) ltac:(apply acc_iff; auto) ltac:(rewrite Hsyms; reflexivity) ltac:(intros H; apply Hnum in H; tauto) _ _ _ HT2) as (t1 & HT1 & E1 & F1).
      exists (t1 ++ t2 ++ t3). rewrite <- !app_assoc. split; [exact HT1|]. rewrite !map_app, E1, E2, E3, ?app_nil_r. split; auto.
      change (Forall2 K (t1 ++ t2 ++ t3) ([SStr (tx "(")] ++ yield (exprs_of (map tree_of es)) ++ [SStr (tx ")")])). apply Forall2_app; [|apply Forall2_app]; auto.
    - intros e w He IH s Hs pos ts r HT. destruct (IH s (fun _ => Hs) _ _ _ HT) as (t1 & H1 & H2 & H3). exists t1. cbn [map exprs_of yield flat_map]. rewrite !app_nil_r. auto.
    - intros e u a e' es w He IH1 Ha Hes IH2 Hsep s Hs pos ts r HT. rewrite !app_length in HT.
      destruct (IH2 s Hs (pos + length u + length a) ts r) as (t2 & HT2 & E2 & F2); [rewrite <- !Nat.add_assoc; exact HT|].
      apply (read_white a Ha) in HT2.
      destruct (IH1 (a ++ w ++ s)) with (pos := pos) (ts := t2 ++ ts) (r := r) as (t1 & HT1 & E1 & F1); auto.
      { intros Hi. apply white_no_digit; auto. intros ->. specialize (Hsep eq_refl Hi). destruct (writes_all_head _ _ Hes) as (e1 & es1 & c & w' & E & -> & Hc & _).
        injection E as <- <-. cbn. intros Hd. rewrite Hc in Hsep; [discriminate|auto]. }
      exists (t1 ++ t2). rewrite <- !app_assoc. split; auto. rewrite map_app, E1, E2. split; auto.
      cbn [map exprs_of yield flat_map]. rewrite app_nil_r. apply Forall2_app; auto.
  Qed.

  (** All that is read is ASCII. *)
  Lemma lisp_ascii x u : In x (lex_syms g) -> sym_lang lisp_regex x u -> ascii u.
  Proof using Hsyms.
    rewrite Hsyms. intros [<-|[<-|[<-|[<-|[]]]]] Hl; [cbn in Hl; subst u; repeat constructor..|].
    apply int_lang in Hl as (c & ds & -> & Hc & Hd). constructor; [lia|]. eapply Forall_impl; [|exact Hd]. unfold digit. cbn. lia.
  Qed.
End Lisp.

Lemma layout_ascii pos s ts r : Layout pos s ts r -> (forall p u, In (p, u) ts -> ascii u) ->
  forall p u, In (p, u) ts -> exists a b, s = a ++ u ++ b /\ p = pos + length a /\ ascii (a ++ u).
Proof.
  induction 1 as [pos r|pos u v ts r Hu H IH|pos c v ts r Hc H IH]; intros Ha p w Hin.
  - destruct Hin.
  - destruct Hin as [E|Hin].
    + injection E as <- <-. exists [], v. split; auto. split; [cbn; lia|]. eapply Ha. left. reflexivity.
    + destruct (IH ltac:(intros; eapply Ha; right; eauto) p w Hin) as (a & b & -> & -> & Hb). exists (u ++ a), b. rewrite <- app_assoc, app_length. split; auto. split; [lia|].
      rewrite <- app_assoc. apply Forall_app. split; auto. eapply Ha. left. reflexivity.
  - destruct (IH Ha p w Hin) as (a & b & -> & -> & Hb). exists (c :: a), b. split; auto. split; [cbn; lia|]. constructor; auto. destruct Hc as [-> | ->]; reflexivity.
Qed.

(** The texts of the tokens determine what is written. *)
Fixpoint proper (e : sexp) : Prop :=
  match e with
  | XAdd => True
  | XInt d => number d
  | XList es => (fix go l := match l with [] => True | e :: l' => proper e /\ go l' end) es
  end.
Lemma proper_list es : proper (XList es) <-> Forall proper es.
Proof. cbn [proper]. induction es as [|e es IH]; [split; auto|]. rewrite IH. split; [intros [H1 H2]; auto|intros H; inversion H; auto]. Qed.
Lemma writes_proper : (forall e w, Writes e w -> proper e) /\ (forall es w, WritesAll es w -> Forall proper es).
Proof.
  apply writes_both; auto.
  - exact I.
  - intros c ds Hc Hd. exists c, ds. auto.
  - intros es a w b _ _ H _. apply proper_list, H.
Qed.
Lemma texts_inj : forall e, proper e -> forall e' l l', proper e' -> texts e ++ l = texts e' ++ l' -> e = e' /\ l = l'.
Proof.
  assert (Hh : forall d s, number d -> match s with c :: _ => ~ (49 <= c <= 57)%N | [] => True end -> d <> s) by (intros d s (c & ds & -> & Hc & _) H <-; auto).
  induction e as [|d|es IH] using sexp_ind'; intros Hp e' l l' Hp' E.
  - destruct e' as [|d|es']; cbn in E; injection E as E; [auto|subst; exfalso; eapply Hh; eauto; cbn; lia|discriminate E].
  - destruct e' as [|d'|es']; cbn in E; injection E as E; [exfalso; eapply Hh; eauto; cbn; lia|subst; auto|exfalso; eapply Hh; eauto; cbn; lia].
  - destruct e' as [|d'|es']; cbn [texts app] in E; [discriminate E|injection E as E; exfalso; eapply (Hh d'); [exact Hp'| |symmetry; exact E]; cbn; lia|].
    injection E as E. rewrite <- !app_assoc in E. cbn [app] in E. apply proper_list in Hp, Hp'.
    assert (Hc : forall e m m', proper e -> texts e ++ m <> tx ")" :: m').
    { intros [|d|fs] m m' He Em; cbn in Em; try discriminate Em. injection Em as Em _. eapply Hh; [exact He| |exact Em]. cbn. lia. }
    enough (es = es' /\ l = l') as [-> ->] by auto. revert es' Hp' E. induction es as [|e es IHes]; intros [|e' es'] Hp' E; cbn [flat_map app] in E; rewrite <- ?app_assoc in E.
    + injection E as ->. auto.
    + exfalso. inversion Hp'; subst. eapply Hc; [|symmetry; exact E]. auto.
    + exfalso. inversion Hp; subst. eapply Hc; [|exact E]. auto.
    + inversion IH as [|? ? I1 I2]; subst. inversion Hp as [|? ? P1 P2]; subst. inversion Hp' as [|? ? P1' P2']; subst. destruct (I1 P1 _ _ _ P1' E) as [-> E']. destruct (IHes I2 P2 _ P2' E') as [-> ->]. auto.
Qed.

(** The reductions of the tree. *)
Lemma post_exprs es : es <> [] -> postorder (exprs_of (map tree_of es)) = flat_map (fun e => postorder (tree_of e)) es ++ 3 :: repeat 2 (pred (length es)).
Proof.
  induction es as [|e [|e' es] IH]; intros H; [congruence|cbn; rewrite app_nil_r; auto|].
  change (postorder (exprs_of (map tree_of (e :: e' :: es)))) with ((postorder (tree_of e) ++ postorder (exprs_of (map tree_of (e' :: es))) ++ []) ++ [2]).
  rewrite app_nil_r, IH by discriminate. cbn [flat_map length pred]. rewrite <- !app_assoc. do 2 f_equal.
  cbn [app]. f_equal. symmetry. cbn [repeat]. f_equal. apply repeat_cons.
Qed.
Lemma post_list es : Forall (fun e => postorder (tree_of e) = steps e) es -> es <> [] -> postorder (sexpr_of (map tree_of es)) = list_steps es.
Proof.
  intros H Hne. unfold sexpr_of, list_steps. cbn [postorder flat_map app]. rewrite app_nil_r, post_exprs by auto. rewrite <- app_assoc. cbn [app]. f_equal.
  induction H as [|e es He _ IH]; cbn [flat_map]; auto. rewrite He. destruct es; [reflexivity|]. rewrite IH by discriminate. reflexivity.
Qed.
Lemma post_steps : (forall e w, Writes e w -> postorder (tree_of e) = steps e) /\ (forall es w, WritesAll es w -> Forall (fun e => postorder (tree_of e) = steps e) es /\ es <> []).
Proof.
  apply writes_both; auto.
  - intros es a w b _ _ [H Hne] _. cbn [tree_of]. change (postorder (Node 4 [sexpr_of (map tree_of es)])) with ((postorder (sexpr_of (map tree_of es)) ++ []) ++ [4]).
    rewrite app_nil_r, post_list by auto. unfold list_steps. cbn [steps]. rewrite <- app_assoc. cbn [app]. rewrite <- app_assoc. reflexivity.
  - intros e w _ H. split; [auto|discriminate].
  - intros e u a e' es w _ H _ _ [H2 _] _. split; [auto|discriminate].
Qed.
Lemma list_post es w : Writes (XList es) w -> postorder (sexpr_of (map tree_of es)) = list_steps es.
Proof. intros H. inversion H as [| |? a v b _ Hes _]; subst. apply post_steps in Hes as [H1 H2]. apply post_list; auto. Qed.
