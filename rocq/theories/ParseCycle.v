(** Cycles of unit reductions: they need a cyclic grammar, and closed tables have none. *)
From Verif Require Import Base Grammar GrammarSpec GrammarProofs First FirstProofs Item ItemSpec ItemProofs ItemPlain Table TableFacts Parse ParseSpec TreeFacts Auto ParseProofs ParseTerm.

(** [A =>+ A]. *)
Definition cyclic_symbol (g : grammar) (n : str) : Prop :=
  exists v, derives1 g [SNon n] v /\ derives g v [SNon n].

Lemma derives_inv g u v : derives g u v -> u = v \/ exists x, derives1 g u x /\ derives g x v.
Proof. destruct 1; eauto. Qed.

Section Cycle.
  Variables (g : grammar) (start : str).
  Hypothesis W : wf_grammar g start.
  Hypothesis Hst : g_start g = aug_name start.
  Variables (hash : list item -> N) (t : tables).
  Hypothesis Ht : make_tables hash g = Ok t.
  Hypothesis He : eps_free g.
  Let A : auto g t := tables_auto g start W Hst hash t Ht.

  Variables (q0 a : nat).
  (** Two reductions following each other. *)
  Definition consec (p p2 : nat) : Prop := exists pr pr2 jj, nth_error (g_prods g) p = Some pr /\ nth_error (g_prods g) p2 = Some pr2 /\
    p_syms pr2 = [SNon (p_name pr)] /\ tbl_get (t_goto t) q0 (p_name pr) = Some jj /\ st t jj p2 1 a /\ exists k, st t q0 p2 0 k.

  Lemma ureds_consec j m1 p p2 m2 j' : ureds g t q0 a j (m1 ++ p :: p2 :: m2) j' -> consec p p2.
  Proof using A.
    intros H. apply ureds_app in H as (j1 & _ & H).
    inversion H as [|? ? pr jj ? ? Ha Hp Hl Hg H']; subst. inversion H' as [|? ? pr2 j2 ? ? Ha2 Hp2 Hl2 Hg2 _]; subst.
    apply (a_reduce _ _ A) in Ha2 as (_ & d & (pr' & Hp' & ->) & Hk). rewrite Hp2 in Hp'. injection Hp' as <-.
    rewrite Hl2 in Hk. destruct (a_goto _ _ A _ _ _ Hg) as (_ & Hb & _). destruct (Hb _ _ _ Hk) as ((pr' & Hp' & Hx) & k & Hk').
    rewrite Hp2 in Hp'. injection Hp' as <-. exists pr, pr2, jj. repeat (split; [assumption|]). split.
    - destruct (p_syms pr2) as [|y [|z l]]; try discriminate. injection Hx as ->. reflexivity.
    - repeat (split; [assumption|]). eauto.
  Qed.

  Lemma cycle_around j ps p : ureds g t q0 a j ps j -> In p ps ->
    exists r, incl (p :: r) ps /\ forall m1 x y m2, p :: r ++ [p] = m1 ++ x :: y :: m2 -> consec x y.
  Proof using A.
    intros H Hin. apply in_split in Hin as (l1 & l2 & ->). exists (l2 ++ l1). split.
    - intros x Hx. apply in_or_app. simpl in *. destruct Hx as [<-|Hx]; auto. apply in_app_or in Hx as [Hx|Hx]; auto.
    - intros m1 x y m2 E. assert (H2 : ureds g t q0 a j ((l1 ++ p :: l2) ++ l1 ++ p :: l2) j) by (apply ureds_app; eauto).
      replace ((l1 ++ p :: l2) ++ l1 ++ p :: l2) with (l1 ++ (p :: (l2 ++ l1) ++ [p]) ++ l2) in H2
        by (rewrite <- !app_assoc; simpl; rewrite <- !app_assoc; reflexivity).
      rewrite E in H2. rewrite <- app_assoc, app_assoc in H2. eapply ureds_consec, H2.
  Qed.

  Lemma chain_back (Q : nat -> Prop) : (forall x y, consec x y -> Q y -> Q x) -> forall r p,
    (forall m1 x y m2, r ++ [p] = m1 ++ x :: y :: m2 -> consec x y) -> Q p -> forall x, In x (r ++ [p]) -> Q x.
  Proof.
    intros HQ r p. induction r as [|z r IH]; intros Hc Hp x Hx.
    - simpl in Hx. destruct Hx as [<-|[]]. exact Hp.
    - assert (Hr : forall y, In y (r ++ [p]) -> Q y).
      { apply IH; auto. intros m1 u v m2 E. apply (Hc (z :: m1) u v m2). simpl. rewrite E. reflexivity. }
      simpl in Hx. destruct Hx as [<-|Hx]; auto.
      destruct (r ++ [p]) as [|y l] eqn:E; [destruct r; discriminate|].
      apply (HQ z y); [|apply Hr; left; reflexivity]. apply (Hc [] z y l). simpl. rewrite E. reflexivity.
  Qed.

  (** A cycle of unit reductions shows a cyclic symbol. *)
  Lemma consec_derives p p2 pr pr2 : consec p p2 -> nth_error (g_prods g) p = Some pr -> nth_error (g_prods g) p2 = Some pr2 ->
    derives1 g [SNon (p_name pr2)] [SNon (p_name pr)].
  Proof.
    intros (pr' & pr2' & jj & H1 & H2 & H3 & _) Hp Hp2. rewrite Hp in H1. rewrite Hp2 in H2. injection H1 as <-. injection H2 as <-.
    pose proof (derives1_intro g [] (p_name pr2) (p_syms pr2) []) as H. simpl in H. rewrite app_nil_r, H3 in H. apply H.
    exists pr2. eauto using nth_error_In.
  Qed.
  Lemma cycle_cyclic j ps : ureds g t q0 a j ps j -> ps <> [] -> exists n, cyclic_symbol g n /\ exists q k, st t q0 q 0 k /\ sym_at g q 0 (SNon n).
  Proof using A.
    intros H Hne. destruct ps as [|p ps]; [congruence|].
    destruct (cycle_around j (p :: ps) p H (or_introl eq_refl)) as (r & Hi & Hc).
    assert (Hp : exists pr, nth_error (g_prods g) p = Some pr).
    { pose proof (ureds_prods g t q0 a j _ j H p (or_introl eq_refl)) as Hlt.
      destruct (nth_error (g_prods g) p) eqn:E; eauto. apply nth_error_None in E. lia. }
    destruct Hp as [pr Hp]. exists (p_name pr).
    assert (Hsy : exists q k, st t q0 q 0 k /\ sym_at g q 0 (SNon (p_name pr))).
    { destruct (r ++ [p]) as [|y l] eqn:E; [destruct r; discriminate|].
      destruct (Hc [] p y l eq_refl) as (pr' & pr2 & jj & H1 & H2 & H3 & _ & _ & k & Hk). exists y, k. split; auto. exists pr2. split; auto. rewrite H3. cbn. congruence. }
    split; [|exact Hsy]. clear Hsy.
    (* every production of the chain is derived from [p]'s name *)
    assert (G : forall x, In x (r ++ [p]) -> exists prx, nth_error (g_prods g) x = Some prx /\ derives g [SNon (p_name pr)] [SNon (p_name prx)]).
    { apply (chain_back (fun x => exists prx, nth_error (g_prods g) x = Some prx /\ derives g [SNon (p_name pr)] [SNon (p_name prx)])).
      - intros x y Hxy (pry & Hy & Hd). pose proof Hxy as (prx & pry' & jj & Hx & Hy' & _). exists prx. split; auto.
        eapply derives_trans; [exact Hd|]. eapply derives_step; [|constructor]. eapply consec_derives; eauto.
      - intros m1 x y m2 E. apply (Hc (p :: m1) x y m2). simpl. rewrite E. reflexivity.
      - exists pr. split; auto. constructor. }
    destruct (r ++ [p]) as [|y l] eqn:E; [destruct r; discriminate|].
    assert (Hpy : consec p y) by (apply (Hc [] p y l); reflexivity).
    destruct (G y (or_introl eq_refl)) as (pry & Hy & Hd). pose proof (consec_derives _ _ _ _ Hpy Hp Hy) as H1.
    destruct (derives_inv g _ _ Hd) as [Eu|(v & Hd1 & Hd2)].
    - exists [SNon (p_name pr)]. split; [rewrite Eu at 1; exact H1|constructor].
    - exists v. split; auto. eapply derives_trans; [exact Hd2|]. eapply derives_step; [exact H1|constructor].
  Qed.

  (** ** Closed tables *)
  Hypothesis Heof : eof_free g.
  Hypothesis Hf : start_fresh g.
  Hypothesis Hcl : closed g t.

  (** A shift for every terminal that can come first. *)
  Lemma first_shift z b : lms g z b -> terminal b -> forall i p d k, st t i p d k -> sym_at g p d z ->
    exists p' d' k', st t i p' d' k' /\ sym_at g p' d' b.
  Proof using W Hst Ht He.
    induction 1 as [x|B y l z Hr Hl IH]; intros Hb i p d k Hk Hz; [eauto 10|].
    destruct (st_first g start W hash t Ht He i p d k B Hk Hz) as (_ & a0 & b0 & kb & Ha & HF & Hkb).
    destruct Hr as (pq & Hin & <- & Hs). apply In_nth_error in Hin as [q Hq].
    pose proof (st_closed g start W hash t Ht He i p d k a0 q pq b0 kb Hk Hz Hq Ha HF Hkb) as Hn.
    apply (IH Hb i q 0 kb Hn). exists pq. split; auto. rewrite Hs. reflexivity.
  Qed.

  Lemma rest_sym p d x l : rest g p d = x :: l -> sym_at g p d x.
  Proof.
    unfold rest, sym_at. destruct (nth_error (g_prods g) p) as [pr|]; [|discriminate]. intros E. exists pr. split; auto.
    rewrite <- (firstn_skipn d (p_syms pr)), E. 
    assert (Hd : d < length (p_syms pr)) by (destruct (le_lt_dec (length (p_syms pr)) d) as [C|C]; auto; rewrite skipn_all2 in E by lia; discriminate).
    rewrite nth_error_app2; rewrite firstn_length, Nat.min_l; try lia. rewrite Nat.sub_diag. reflexivity.
  Qed.
  Lemma derives_terminals_refl u v : derives g u v -> terminals u -> v = u.
  Proof.
    induction 1 as [|u v w H1 H2 IH]; auto. intros Hu. exfalso. destruct H1 as [x n b c _].
    apply Forall_app in Hu as [_ Hu]. inversion Hu as [|? ? Hn _]; subst. eapply Hn; reflexivity.
  Qed.

  Lemma tok_same k k' x : nth_error (g_tokens g) k = Some x -> tok g k' x -> k = k'.
  Proof using W Heof.
    intros H [H' _]. pose proof (tokens_nodup g start W Heof) as Hn. rewrite NoDup_nth_error in Hn.
    apply Hn; [|congruence]. eapply nth_error_lt, H.
  Qed.

  Lemma no_cycle j ps : ureds g t q0 a j ps j -> ps = [].
  Proof using W Hst Ht He A Heof Hf Hcl.
    intros H. destruct ps as [|pa ps']; auto. exfalso.
    set (ps := pa :: ps') in *.
    assert (Hpa : In pa ps) by (left; reflexivity).
    assert (Hsucc : forall p, In p ps -> exists p2, In p2 ps /\ consec p p2).
    { intros p Hp. destruct (cycle_around j ps p H Hp) as (r & Hi & Hc).
      destruct (r ++ [p]) as [|y l] eqn:E; [destruct r; discriminate|]. exists y. split.
      - assert (Hy : In y (r ++ [p])) by (rewrite E; left; reflexivity). apply Hi.
        apply in_app_or in Hy as [Hy|[<-|[]]]; simpl; auto.
      - apply (Hc [] p y l). reflexivity. }
    (* the first item, in the derivation of an item of the cycle, that is not of the cycle *)
    assert (Hout : exists P d y pj prj, st t q0 P d y /\ ~ (d = 0 /\ In P ps) /\ In pj ps /\
       nth_error (g_prods g) pj = Some prj /\ sym_at g P d (SNon (p_name prj))).
    { destruct (cycle_around j ps pa H Hpa) as (r & _ & Hc).
      assert (Hk : exists k, st t q0 pa 0 k).
      { assert (E : exists m1 x, pa :: r ++ [pa] = m1 ++ x :: pa :: []).
        { destruct (exists_last (l := pa :: r) ltac:(discriminate)) as (m1 & x & E). exists m1, x.
          change (pa :: r ++ [pa]) with ((pa :: r) ++ [pa]). rewrite E, <- app_assoc. reflexivity. }
        destruct E as (m1 & x & E). destruct (Hc m1 x pa [] E) as (? & ? & ? & _ & _ & _ & _ & _ & Hk). exact Hk. }
      destruct Hk as [k Hk]. destruct (make_tables_built _ _ _ _ W Ht) as (lr0 & m & B).
      destruct (st_lr g start W hash t lr0 m q0 pa 0 k B Hk) as (I & HI & HkI & Hi & _).
      assert (G : (exists K : lrset, (forall p d k, K p d k -> d <> 0 \/ p = 0) /\ forall p d k, clo g (F_code g) K p d k <-> I p d k)).
      { inversion HI as [|J x HJ Hne].
        - exists init_set. split; [intros p1 d1 k1 (-> & -> & ->); auto|intros p1 d1 k1; reflexivity].
        - exists (move g J x). split; [intros p1 d1 k1 (d' & -> & _); auto|intros p1 d1 k1; reflexivity]. }
      destruct G as (K & HK & Hq). apply Hq in HkI.
      assert (Hgen : forall p d k, clo g (F_code g) K p d k -> d = 0 -> In p ps -> exists P d y pj prj, st t q0 P d y /\ ~ (d = 0 /\ In P ps) /\ In pj ps /\
       nth_error (g_prods g) pj = Some prj /\ sym_at g P d (SNon (p_name prj))).
      { intros p d k1 Hc1. induction Hc1 as [p d k1 H1|p d k1 a1 q pq b k' Hc' IH Hs Hpq Ha HF Hk']; intros Ed Hin.
        - exfalso. apply HK in H1 as [C|C]; [congruence|]. subst p.
          destruct (Hsucc 0 Hin) as (p2 & _ & pr & pr2 & jj & E1 & E2 & E3 & _).
          rewrite (wg_prod0 _ _ W) in E1. injection E1 as <-. cbn [p_name] in E3.
          apply (Hf pr2 (nth_error_In _ _ E2)). rewrite Hst, E3. left. reflexivity.
        - destruct (Nat.eq_dec d 0) as [Hd|Hd].
          + destruct (in_dec Nat.eq_dec p ps) as [Hp|Hp]; [apply IH; auto|].
            exists p, d, k1, q, pq. split; [apply Hi, Hq, Hc'|]. split; [tauto|]. auto.
          + exists p, d, k1, q, pq. split; [apply Hi, Hq, Hc'|]. split; [tauto|]. auto. }
      eapply Hgen; eauto. }
    destruct Hout as (P & d & y & pj & prj & HP & Hout & Hpj & Hprj & Hsym).
    destruct (st_first g start W hash t Ht He q0 P d y _ HP Hsym) as (_ & a0 & b & kb & Ha0 & HF & Hkb).
    (* the lookahead goes round the cycle *)
    destruct (cycle_around j ps pj H Hpj) as (r & Hi & Hc).
    assert (Hround : forall x, In x (r ++ [pj]) -> st t q0 x 0 kb).
    { apply (chain_back (fun x => st t q0 x 0 kb)).
      - intros x x2 (prx & pr2 & jj & Hx & Hx2 & Hs & _) Hk. 
        refine (st_closed g start W hash t Ht He q0 x2 0 kb b x prx b kb Hk _ Hx (proj1 Hkb) _ Hkb).
        + exists pr2. split; auto. rewrite Hs. reflexivity.
        + unfold rest. rewrite Hx2, Hs. simpl. split; [apply HF|]. exists []. constructor.
      - intros m1 x x2 m2 E. apply (Hc (pj :: m1) x x2 m2). simpl. rewrite E. reflexivity.
      - exact (st_closed g start W hash t Ht He q0 P d y a0 pj prj b kb HP Hsym Hprj Ha0 HF Hkb). }
    destruct (r ++ [pj]) as [|p2 l] eqn:E; [destruct r; discriminate|].
    assert (Hp2 : In p2 ps).
    { assert (Hy : In p2 (r ++ [pj])) by (rewrite E; left; reflexivity). apply Hi.
      apply in_app_or in Hy as [Hy|[<-|[]]]; simpl; auto. }
    destruct (Hc [] pj p2 l) as (pr & pr2 & jj & E1 & E2 & E3 & E4 & _); [reflexivity|].
    rewrite Hprj in E1. injection E1 as <-.
    destruct (a_goto _ _ A _ _ _ E4) as (_ & _ & _ & Hfw).
    assert (C1 : st t jj p2 1 kb).
    { apply Hfw; [apply Hround; left; reflexivity|]. exists pr2. split; auto. rewrite E3. reflexivity. }
    pose proof (Hfw _ _ _ HP Hsym) as C2.
    assert (Hcomp : complete g p2 1) by (exists pr2; split; auto; rewrite E3; reflexivity).
    destruct (rest g P (S d)) as [|z l'] eqn:Er.
    - (* reduce/reduce *)
      destruct HF as [Hb [wv Hd]]. simpl in Hd.
      assert (b = a0).
      { assert (Ht0 : terminals [a0]).
        { constructor; [|constructor]. apply derives_cons_head in Hd; auto.
          inversion Hd as [|B y0 l0 z0 Hr Hl0]; subst; [exact Hb|]. exfalso.
          destruct (make_tables_built _ _ _ _ W Ht) as (lr0 & m & Bt).
          destruct (st_lr g start W hash t lr0 m q0 P d y Bt HP) as (I & HI & HkI & _).
          destruct (lr_lookahead g start W He I HI _ _ _ HkI) as (a1 & Ha1 & Hta). rewrite Ha0 in Ha1. injection Ha1 as <-.
          eapply Hta. reflexivity. }
        pose proof (derives_terminals_refl _ _ Hd Ht0) as Eq. injection Eq as ->. reflexivity. }
      subst b. pose proof (tok_same _ _ _ Ha0 Hkb) as ->.
      assert (HcP : complete g P (S d)).
      { destruct Hsym as (prP & HprP & HxP). exists prP. split; auto. unfold rest in Er. rewrite HprP in Er.
        apply nth_error_lt in HxP. assert (length (skipn (S d) (p_syms prP)) = 0) by (rewrite Er; reflexivity).
        rewrite skipn_length in *. lia. }
      pose proof (a_one _ _ A jj p2 1 P (S d) kb C1 Hcomp C2 HcP) as Eq. injection Eq as <- Ed. apply Hout. split; [lia|auto].
    - (* shift/reduce *)
      destruct HF as [Hb [wv Hd]]. simpl in Hd. apply derives_cons_head in Hd; auto.
      destruct (first_shift z b Hd Hb jj P (S d) y C2 (rest_sym _ _ _ _ Er)) as (p' & d' & k' & H1 & H2).
      destruct (Hcl jj p' d' k' b H1 H2) as [H3 _]. destruct (H3 Hb kb Hkb) as [jx Hjx].
      rewrite (a_complete _ _ A jj p2 1 kb C1 Hcomp) in Hjx. destruct ((kb =? 0) && (p2 =? 0)); discriminate.
  Qed.
End Cycle.
