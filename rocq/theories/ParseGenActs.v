(** The generated actions, read back. *)
From Coq Require Import Ascii String.
From Verif Require Import Base Text Regex Nfa Dfa Lex Grammar First Item Table Lalr LexGen TsText TsTextFacts TsScan
  TsModule TsModuleFacts LexGenProofs ParseGen ParseGenProofs.
Local Open Scope list_scope.

(** ** Inside a string *)

Definition pre_tok (q : N) (w : list N) (r : list tok * sst) : list tok * sst :=
  match r with
  | ([], SStr q' y) => ([], SStr q' (w ++ y))
  | ([], SEsc q' y) => ([], SEsc q' (w ++ y))
  | ([], SBad) => ([], SBad)
  | (TStr q' y :: l, s) => (TStr q' (w ++ y) :: l, s)
  | r => r
  end.
Lemma scan_pre a : forall q w x,
  scan (SStr q (w ++ x)) a = pre_tok q w (scan (SStr q x) a) /\ scan (SEsc q (w ++ x)) a = pre_tok q w (scan (SEsc q x) a).
Proof.
  assert (B : forall t, scan SBad t = ([], SBad)) by (induction t as [|c t IH]; cbn; [|rewrite IH]; reflexivity).
  induction a as [|c a IH]; intros q w x; [split; reflexivity|]. split; cbn [scan sstep].
  - destruct (c =? q)%N; [destruct (scan SNone a); reflexivity|]. destruct (c =? 92)%N.
    + destruct (IH q w x) as [_ H]. rewrite H. destruct (scan (SEsc q x) a) as [[|[] l] []]; reflexivity.
    + destruct (_ && _); [rewrite B; reflexivity|]. rewrite <- app_assoc. destruct (IH q w (x ++ [c])) as [H _]. rewrite H.
      destruct (scan (SStr q (x ++ [c])) a) as [[|[] l] []]; reflexivity.
  - destruct (existsb _ _); [rewrite B; reflexivity|].
    match goal with |- context [SStr q ((w ++ x) ++ ?y)] => rewrite <- (app_assoc w x y); destruct (IH q w (x ++ y)) as [H _]; rewrite H;
      destruct (scan (SStr q (x ++ y)) a) as [[|[] l] []]; reflexivity end.
Qed.
Lemma scan_in q w a y b l s : scan (SStr q []) a = ([], SStr q y) -> scan (SStr q (w ++ y)) b = (l, s) -> scan (SStr q w) (a ++ b) = (l, s).
Proof.
  intros E1 E2. destruct (scan_pre a q w []) as [H _]. rewrite app_nil_r, E1 in H. cbn [pre_tok] in H.
  rewrite (scan_app_eq _ _ _ _ _ H), E2. reflexivity.
Qed.
Lemma scan_close q w a y l1 s1 b l s : scan (SStr q []) a = (TStr q y :: l1, s1) -> scan s1 b = (l, s) ->
  scan (SStr q w) (a ++ b) = (TStr q (w ++ y) :: l1 ++ l, s).
Proof.
  intros E1 E2. destruct (scan_pre a q w []) as [H _]. rewrite app_nil_r, E1 in H. cbn [pre_tok] in H.
  rewrite (scan_app_eq _ _ _ _ _ H), E2. reflexivity.
Qed.
Lemma unq_dec q n : (q = 34 \/ q = 39 \/ q = 96)%N -> scan (SStr q []) (dec n) = ([], SStr q (dec n)).
Proof.
  intros Hq. assert (H : quotable q (dec n)).
  { unfold quotable. eapply Forall_impl; [|apply dec_digits]. intros c Hc. cbn beta in Hc. unfold is_digit in Hc. apply andb_true_iff in Hc as [H1 H2].
    apply N.leb_le in H1, H2. lia. }
  apply quotable_unq in H. apply unq_scan in H. exact H.
Qed.
Lemma scan_dec_in q w n b l s : (q = 34 \/ q = 39 \/ q = 96)%N -> scan (SStr q (w ++ dec n)) b = (l, s) -> scan (SStr q w) (dec n ++ b) = (l, s).
Proof. intros Hq. apply scan_in. apply unq_dec; auto. Qed.

Ltac ss name := repeat (first [sc1 name
  | lazymatch goal with |- scan (SStr ?q _) (dec _ ++ _) = _ => apply scan_dec_in; [first [left; reflexivity | right; left; reflexivity | right; right; reflexivity]|] end
  | lazymatch goal with |- scan (SStr ?q _) (tx _ ++ _) = _ => first [eapply scan_in; [lit_eval|] | eapply scan_close; [lit_eval|]] end
  | apply scan_word_then; [name|] | apply scan_more_then; [name|] ]).

(** ** Conditions and errors *)

Definition err_text (kind : string) (i idx : nat) : list N := tx kind ++ tx " (pos `" ++ decn i ++ tx "`, Action" ++ decn idx ++ tx ")".
Definition us (n : list N) : tok := TWord (tx "__" ++ n).
Definition token_cond (n : list N) : list tok :=
  [us n; word "extends"] ++ (TPun 123 :: [word "kind"; TPun 58; TStr 34 (tx "token"); TPun 44; word "token"; TPun 58; word "L"; TPun 46; word "Token"] ++ [TPun 125]).
Definition value_cond (n : list N) : list tok :=
  [us n] ++ (TPun 91 :: [TStr 39 (tx "token")] ++ [TPun 93]) ++ (TPun 91 :: [TStr 39 (tx "value")] ++ [TPun 93]) ++ [word "extends"; word "infer"; TWord n].
Definition check_toks (idx i : nat) (p : aparam) : list (list tok) * list (list tok) :=
  match p with
  | PNamed n (PNon nt) =>
      ([[us n; word "extends"] ++ (TPun 123 :: [word "kind"; TPun 58; TStr 34 nt; TPun 44; word "value"; TPun 58; word "infer"; TWord n; word "extends"; TWord nt] ++ [TPun 125])],
       [[TStr 34 (err_text "error: invalid symbol" i idx)]])
  | PNamed n (PStr s) =>
      ([token_cond n; value_cond n ++ [word "extends"; TStr 39 (unq0 39 s)]],
       [[TStr 96 (err_text "error: not a token" i idx)]; [TStr 96 (err_text "error: invalid symbol" i idx)]])
  | PNamed n (PReg _) =>
      ([token_cond n; value_cond n ++ [word "extendsstring"]],
       [[TStr 96 (err_text "error: not a token" i idx)]; [TStr 96 (err_text "error: invalid symbol" i idx)]])
  | _ => ([], [])
  end.
Definition readable_param (p : aparam) : Prop :=
  match p with
  | PNamed n (PNon nt) => ident n /\ ident nt
  | PNamed n (PStr s) => ident n /\ unq 39 s <> None
  | PNamed n (PReg _) => ident n
  | PNamed n (PNamed _ _) => False
  | _ => True
  end.
Lemma more_ident n : ident n -> Forall (fun c => word_char c = true) n.
Proof. intros H. apply ident_wordy in H. destruct n as [|c n]; [constructor|]. destruct H as [H1 H2]. constructor; auto. unfold word_char. rewrite H1. reflexivity. Qed.
Lemma scan_checks idx i p cs es : readable_param p -> checks idx i p = Ok (cs, es) ->
  Forall2 (fun t l => scan SNone (t ++ tx " ? ") = (l ++ [TPun 63], SNone)) cs (fst (check_toks idx i p)) /\
  Forall2 (fun t l => scan SNone t = (l, SNone)) es (snd (check_toks idx i p)).
Proof.
  intros Hr E. destruct p as [n p|s|s|s]; try (apply ok_inj in E; injection E as <- <-; split; constructor).
  destruct p as [n' p|s|s|s]; [destruct Hr|..]; unfold checks in E; apply ok_inj in E; apply pair_equal_spec in E as [<- <-]; cbn [check_toks fst snd readable_param] in *.
  - destruct Hr as [H1 H2]. pose proof (more_ident _ H1) as H3. pose proof (ident_wordy _ H1) as H4. pose proof (ident_wordy _ H2) as H5.
    pose proof (ident_unq 34 _ (or_introl eq_refl) H2) as H6. split.
    + constructor; [|constructor]. etransitivity; [ss ltac:(eassumption)|reflexivity].
    + constructor; [|constructor]. etransitivity; [ss idtac|]. unfold err_text. f_equal. f_equal. rewrite <- ?app_assoc. reflexivity.
  - destruct Hr as [H1 H2]. pose proof (more_ident _ H1) as H3. pose proof (ident_wordy _ H1) as H4. apply unq0_ok in H2. split.
    + constructor; [|constructor; [|constructor]]; etransitivity; [ss ltac:(eassumption)|reflexivity|ss ltac:(eassumption)|reflexivity].
    + constructor; [|constructor; [|constructor]]; (etransitivity; [ss idtac|]; unfold err_text; f_equal; f_equal; rewrite <- ?app_assoc; reflexivity).
  - rename Hr into H1. pose proof (more_ident _ H1) as H3. pose proof (ident_wordy _ H1) as H4. split.
    + constructor; [|constructor; [|constructor]]; etransitivity; [ss ltac:(eassumption)|reflexivity|ss ltac:(eassumption)|reflexivity].
    + constructor; [|constructor; [|constructor]]; (etransitivity; [ss idtac|]; unfold err_text; f_equal; f_equal; rewrite <- ?app_assoc; reflexivity).
Qed.

(** ** Conditional types *)

Definition onto (a : list tok) (x : list tok * list tok) : list tok * list tok := (a ++ fst x, snd x).
Definition deep (a : list tok) : Prop := forall d b, stretch (S d) (a ++ b) = onto a (stretch (S d) b).
Definition smooth (a : list tok) : Prop := forall b, stretch 0 (a ++ b) = onto a (stretch 0 b).
Lemma onto_nil x : onto [] x = x.
Proof. destruct x; reflexivity. Qed.
Lemma onto_app a b x : onto (a ++ b) x = onto a (onto b x).
Proof. unfold onto. cbn [fst snd]. rewrite app_assoc. reflexivity. Qed.
Lemma deep_nil : deep [].
Proof. intros d b. rewrite onto_nil. reflexivity. Qed.
Lemma smooth_nil : smooth [].
Proof. intros b. rewrite onto_nil. reflexivity. Qed.
Lemma deep_app a b : deep a -> deep b -> deep (a ++ b).
Proof. intros H1 H2 d c. rewrite <- app_assoc, H1, H2, onto_app. reflexivity. Qed.
Lemma smooth_app a b : smooth a -> smooth b -> smooth (a ++ b).
Proof. intros H1 H2 c. rewrite <- app_assoc, H1, H2, onto_app. reflexivity. Qed.
Lemma stretch_deep t d r : stretch (S d) (t :: r) = onto [t] (stretch (if opens t then S (S d) else if closes t then d else S d) r).
Proof. cbn [stretch]. destruct (opens t); [|destruct (closes t)]; destruct (stretch _ r); reflexivity. Qed.
Lemma deep_cons t a : flat_tok t = true -> deep a -> deep (t :: a).
Proof.
  unfold flat_tok. intros H Ha d b. apply andb_true_iff in H as [H1 H2]. apply negb_true_iff in H1, H2. cbn [app].
  rewrite stretch_deep, H1, H2, Ha, <- onto_app. reflexivity.
Qed.
Lemma smooth_cons t a : flat_tok t = true -> stops t = false -> smooth a -> smooth (t :: a).
Proof.
  unfold flat_tok. intros H Hs Ha b. apply andb_true_iff in H as [H1 H2]. apply negb_true_iff in H1, H2. cbn [app stretch].
  rewrite Hs, H2, H1, Ha. cbn [orb]. unfold onto. destruct (stretch 0 b). reflexivity.
Qed.
Lemma opens_closes o : opens (TPun o) = true -> closes (TPun o) = false /\ stops (TPun o) = false.
Proof.
  unfold opens, closes, stops. destruct (N.eqb_spec o 40) as [->|_]; [auto|].
  destruct (N.eqb_spec o 91) as [->|_]; [auto|]. destruct (N.eqb_spec o 123) as [->|_]; [auto|discriminate].
Qed.
Lemma deep_brackets o c a : opens (TPun o) = true -> closes (TPun c) = true -> opens (TPun c) = false -> deep a -> deep (TPun o :: a ++ [TPun c]).
Proof.
  intros Ho Hc Hc' Ha d b. cbn [app]. rewrite <- app_assoc, stretch_deep, Ho, Ha. cbn [app]. rewrite stretch_deep, Hc', Hc.
  unfold onto. cbn [fst snd app]. rewrite <- app_assoc. reflexivity.
Qed.
Lemma smooth_brackets o c a : opens (TPun o) = true -> closes (TPun c) = true -> opens (TPun c) = false -> deep a -> smooth (TPun o :: a ++ [TPun c]).
Proof.
  intros Ho Hc Hc' Ha b. destruct (opens_closes o Ho) as [H1 H2]. cbn [app stretch]. rewrite H1, H2, Ho. cbn [orb].
  rewrite <- app_assoc, Ha. cbn [app]. rewrite stretch_deep, Hc', Hc. unfold onto. cbn [fst snd app]. rewrite <- app_assoc. destruct (stretch 0 b); reflexivity.
Qed.
Lemma deep_level ts : forall d d' e b, level d ts = Some d' -> stretch (d + S e) (ts ++ b) = onto ts (stretch (d' + S e) b).
Proof.
  induction ts as [|t ts IH]; intros d d' e b H; cbn [level] in H; [injection H as <-; rewrite onto_nil; reflexivity|].
  cbn [app]. replace (d + S e) with (S (d + e)) by lia. rewrite stretch_deep. change (onto (t :: ts)) with (onto ([t] ++ ts)). rewrite onto_app. f_equal.
  destruct (opens t); [replace (S (S (d + e))) with (S d + S e) by lia; apply IH; auto|].
  destruct (closes t); [destruct d as [|d]; [discriminate|]; replace (S d + e) with (d + S e) by lia; apply IH; auto|].
  replace (S (d + e)) with (d + S e) by lia. apply IH; auto.
Qed.
Lemma deep_balanced ts : level 0 ts = Some 0 -> deep ts.
Proof. intros H d b. exact (deep_level ts 0 0 d b H). Qed.
Lemma deep_flat_map {A} (f : A -> list tok) l : (forall x, In x l -> deep (f x)) -> deep (flat_map f l).
Proof.
  induction l as [|x l IH]; intros H; [apply deep_nil|]. cbn [flat_map]. apply deep_app; [apply H; left; auto|].
  apply IH. intros y Hy. apply H. right. auto.
Qed.
Ltac dp := repeat lazymatch goal with
  | |- deep [] => exact deep_nil
  | |- deep (TPun 123 :: ?a ++ [TPun 125]) => apply (deep_brackets 123 125 a); [reflexivity..|]
  | |- deep (TPun 91 :: ?a ++ [TPun 93]) => apply (deep_brackets 91 93 a); [reflexivity..|]
  | |- deep (?t :: ?r) => apply (deep_cons t r); [reflexivity|]
  | |- deep (?a ++ ?b) => apply (deep_app a b)
  end.
Ltac sm := repeat lazymatch goal with
  | |- smooth [] => exact smooth_nil
  | |- smooth (TPun 123 :: ?a ++ [TPun 125]) => apply (smooth_brackets 123 125 a); [reflexivity..|]
  | |- smooth (TPun 91 :: ?a ++ [TPun 93]) => apply (smooth_brackets 91 93 a); [reflexivity..|]
  | |- smooth (?t :: ?r) => apply (smooth_cons t r); [reflexivity..|]
  | |- smooth (?a ++ ?b) => apply (smooth_app a b)
  end.

Fixpoint ctoks (c : ctype) : list tok :=
  match c with CAtom a => a | CCond c t e => c ++ TPun 63 :: ctoks t ++ TPun 58 :: ctoks e end.
Definition sm1 (a : list tok) : Prop := smooth a /\ a <> [].
Fixpoint ct_ok (c : ctype) : Prop := match c with CAtom a => sm1 a | CCond c t e => sm1 c /\ ct_ok t /\ ct_ok e end.
Definition after (b : list tok) : Prop := exists t r, b = t :: r /\ (stops t || closes t = true) /\ t <> TPun 63.
Lemma smooth_stop a t r : smooth a -> stops t || closes t = true -> stretch 0 (a ++ t :: r) = (a, t :: r).
Proof. intros H Ht. rewrite H. cbn [stretch]. rewrite Ht. unfold onto. cbn [fst snd]. rewrite app_nil_r. reflexivity. Qed.
Lemma ct_read c : ct_ok c -> forall b, after b -> CT (ctoks c ++ b) c b.
Proof.
  induction c as [a|c t IHt e IHe]; cbn [ct_ok ctoks].
  - intros [H1 H2] b (x & r & -> & Hs & Hq). apply ct_atom; auto.
    + apply smooth_stop; auto.
    + intros r' E. apply Hq. congruence.
  - intros ([H1 H2] & Ht & He) b Hb. rewrite <- app_assoc. cbn [app]. eapply ct_cond.
    + apply smooth_stop; [auto|reflexivity].
    + auto.
    + rewrite <- app_assoc. cbn [app]. apply IHt; auto. exists (TPun 58). eexists. split; [reflexivity|]. split; [reflexivity|discriminate].
    + apply IHe; auto.
Qed.

(** Several conditions in a row, with the errors that follow in the order they are written. *)
Fixpoint chain (cs : list (list tok)) (c : ctype) (res : list (list tok)) : ctype :=
  match cs, res with
  | x :: cs, e :: res => CCond x (chain cs c res) (CAtom e)
  | _, _ => c
  end.
Lemma chain_toks cs : forall c es, length cs = length es ->
  ctoks (chain cs c (rev es)) = flat_map (fun x => x ++ [TPun 63]) cs ++ ctoks c ++ flat_map (fun e => TPun 58 :: e) es.
Proof.
  induction cs as [|x cs IH]; intros c es H.
  - destruct es; [|discriminate]. cbn. rewrite app_nil_r. reflexivity.
  - destruct es as [|e es _] using rev_ind; [discriminate|]. rewrite rev_app_distr. cbn [rev app chain ctoks flat_map].
    rewrite IH; [|rewrite app_length in H; cbn [length] in *; lia]. rewrite flat_map_app. cbn [flat_map]. rewrite app_nil_r.
    rewrite <- !app_assoc. cbn [app]. rewrite <- ?app_assoc. reflexivity.
Qed.
Lemma chain_ok cs : forall c es, Forall sm1 cs -> ct_ok c -> Forall sm1 es -> ct_ok (chain cs c es).
Proof.
  induction cs as [|x cs IH]; intros c es H1 H2 H3; [exact H2|]. destruct es as [|e es]; [exact H2|]. cbn [chain ct_ok].
  inversion H1; subst. inversion H3; subst. split; [auto|]. split; auto.
Qed.

(** ** One action *)

Definition pattern_tok (i : nat) (p : aparam) : list tok :=
  [word "infer"; match p with PNamed n _ => us n | _ => TWord (tx "var" ++ decn i) end; TPun 44].
Fixpoint pattern_toks (i : nat) (l : list aparam) : list tok :=
  match l with
  | [] => []
  | PNamed n p :: l => pattern_tok i (PNamed n p) ++ pattern_toks i l
  | p :: l => pattern_tok i p ++ pattern_toks (S i) l
  end.
Definition readable_name (p : aparam) : Prop := match p with PNamed n _ => ident n | _ => True end.
Lemma readable_param_name p : readable_param p -> readable_name p.
Proof. destruct p as [n [n' p|s|s|s]| | |]; cbn; tauto. Qed.
Lemma scan_pattern l : forall i, Forall readable_param l -> scan SNone (popped_pattern i l) = (pattern_toks i l, SNone).
Proof.
  induction l as [|p l IH]; intros i H; [reflexivity|]. inversion H as [|x y H1 H2]; subst. pose proof (readable_param_name _ H1) as H3.
  destruct p as [n p|s|s|s]; cbn [popped_pattern pattern_toks].
  - apply more_ident in H3. etransitivity.
    + ss ltac:(eassumption). apply IH; auto.
    + reflexivity.
  - etransitivity; [ss idtac; apply IH; auto|reflexivity].
  - etransitivity; [ss idtac; apply IH; auto|reflexivity].
  - etransitivity; [ss idtac; apply IH; auto|reflexivity].
Qed.

Fixpoint checks_toks (idx i : nat) (l : list aparam) : list (list tok) * list (list tok) :=
  match l with
  | [] => ([], [])
  | p :: l => (fst (check_toks idx i p) ++ fst (checks_toks idx (S i) l), snd (check_toks idx i p) ++ snd (checks_toks idx (S i) l))
  end.
Lemma checks_len idx l : forall i, length (fst (checks_toks idx i l)) = length (snd (checks_toks idx i l)).
Proof.
  induction l as [|p l IH]; intros i; [reflexivity|]. cbn [checks_toks fst snd]. rewrite !app_length, IH. f_equal.
  destruct p as [n [n' p|s|s|s]|s|s|s]; reflexivity.
Qed.
Lemma scan_all_checks idx l : forall i cs es, Forall readable_param l -> all_checks idx i l = Ok (cs, es) ->
  Forall2 (fun t l => scan SNone (t ++ tx " ? ") = (l ++ [TPun 63], SNone)) cs (fst (checks_toks idx i l)) /\
  Forall2 (fun t l => scan SNone t = (l, SNone)) es (snd (checks_toks idx i l)).
Proof.
  induction l as [|p l IH]; intros i cs es H E; cbn [all_checks] in E.
  - apply ok_inj in E. apply pair_equal_spec in E as [<- <-]. split; constructor.
  - inversion H as [|x y H1 H2]; subst. apply bind_ok in E as ([c e] & E1 & E). apply bind_ok in E as ([cs' es'] & E2 & E).
    apply ok_inj in E. apply pair_equal_spec in E as [<- <-]. apply scan_checks in E1 as [F1 F2]; auto. apply IH in E2 as [F3 F4]; auto.
    cbn [checks_toks fst snd]. split; apply Forall2_app; auto.
Qed.
Lemma scan_conds cs tcs : Forall2 (fun t l => scan SNone (t ++ tx " ? ") = (l ++ [TPun 63], SNone)) cs tcs ->
  scan SNone (flat_map (fun c => c ++ tx " ? ") cs) = (flat_map (fun x => x ++ [TPun 63]) tcs, SNone).
Proof. induction 1 as [|t l cs tcs H F IH]; [reflexivity|]. cbn [flat_map]. apply scan_seq with SNone; auto. Qed.
Lemma scan_errs es tes : Forall2 (fun t l => scan SNone t = (l, SNone)) es tes ->
  scan SNone (flat_map (fun e => tx " : " ++ e) es) = (flat_map (fun e => TPun 58 :: e) tes, SNone).
Proof.
  induction 1 as [|t l cs tcs H F IH]; [reflexivity|]. cbn [flat_map]. apply scan_seq with SNone; auto.
  change (TPun 58 :: l) with ([TPun 58] ++ l). apply scan_seq with SNone; auto.
Qed.

Definition call_toks (a : gaction) (code : list tok) : list tok :=
  TPun 91 :: ((TPun 123 :: ([word "kind"; TPun 58; TStr 39 (ga_name a); TPun 44; word "value"; TPun 58] ++ code) ++ [TPun 125]) ++
              [TPun 44; TPun 46; TPun 46; TPun 46; word "newStack"]) ++ [TPun 93].
Definition code_of (t : list N) : list tok := match code_tokens t with Some ts => ts | None => [] end.
Lemma scan_call a : ident (ga_name a) -> tame (ga_code a) -> scan SNone (call_impl a) = (call_toks a (code_of (ga_code a)), SNone).
Proof.
  intros Hn (ts & E & _). pose proof (ident_unq 39 _ (or_intror eq_refl) Hn) as H1. unfold code_of. rewrite E. apply code_piece in E.
  unfold call_impl. etransitivity.
  - ss ltac:(first [exact H1|fail 1]). eapply piece_then; [exact E|reflexivity|lit_eval|]. ss idtac.
  - unfold call_toks. rewrite <- ?app_assoc. cbn [app]. rewrite <- ?app_assoc. reflexivity.
Qed.

Definition pop_cond (n : nat) : list tok :=
  [word "U"; TPun 46; word "PopNStackWithValue"; TPun 60; word "symbolStack"; TPun 44; TNum (N.of_nat n); TPun 62; word "extends"] ++
  TPun 91 :: [word "infer"; word "newStack"; TPun 44; word "infer"; word "poppedValues"] ++ [TPun 93].
Definition popped_cond (l : list aparam) : list tok := [word "poppedValues"; word "extends"] ++ TPun 91 :: pattern_toks 0 l ++ [TPun 93].
Definition stack_cond : list tok := [word "newStack"; word "extends"; word "type_defs"; TPun 46; word "Symbol"] ++ TPun 91 :: [] ++ [TPun 93].
Definition stack_err (idx : nat) : list tok := [TStr 96 (tx "unreachable: `newStack` should always be a type_defs.Symbol[] (Action" ++ decn idx ++ tx ")")].
Definition pop_err (idx : nat) : list tok := [TStr 96 (tx "error: popping off symbol Stack Action" ++ decn idx)].
Definition never_err : list tok := [TStr 39 (tx "unreachable: inferring popped values never fails")].
Definition valid_ct (a : gaction) : ctype :=
  chain (fst (checks_toks (ga_idx a) 1 (ga_inputs a))) (CAtom (call_toks a (code_of (ga_code a)))) (rev (snd (checks_toks (ga_idx a) 1 (ga_inputs a)))).
Definition action_ct (a : gaction) : ctype :=
  CCond (pop_cond (pop_amount a))
    (CCond (popped_cond (ga_inputs a)) (CCond stack_cond (valid_ct a) (CAtom (stack_err (ga_idx a)))) (CAtom (pop_err (ga_idx a))))
    (CAtom never_err).
Record readable_action (a : gaction) : Prop := ReadableAction {
  ra_name : ident (ga_name a); ra_code : tame (ga_code a); ra_inputs : Forall readable_param (ga_inputs a) }.
Lemma scan_validate a t : readable_action a -> validate_params a (call_impl a) = Ok t -> scan SNone t = (ctoks (valid_ct a), SNone).
Proof.
  intros [H1 H2 H3] E. unfold validate_params in E. apply bind_ok in E as ([cs es] & Ec & E). apply ok_inj in E. subst t.
  apply scan_all_checks in Ec as [F1 F2]; auto. unfold valid_ct. rewrite chain_toks by apply checks_len. cbn [ctoks].
  apply scan_seq with SNone; [apply scan_conds; auto|]. apply scan_seq with SNone; [apply scan_call; auto|apply scan_errs; auto].
Qed.
Definition params_toks : list tok :=
  [TPun 60; word "symbolStack"; word "extends"; word "type_defs"; TPun 46; word "Symbol"] ++ (TPun 91 :: [] ++ [TPun 93]) ++ [TPun 62; TPun 61].
Definition gact_decl (a : gaction) : list tok := typ (tx "Action" ++ decn (ga_idx a)) (params_toks ++ ctoks (action_ct a) ++ [TNl]).
Lemma scan_gaction a t : readable_action a -> gaction_text a = Ok t -> scan SNone (t ++ tx "
") = (gact_decl a, SNone).
Proof.
  intros H E. unfold gaction_text in E. apply bind_ok in E as (p & Ep & E). apply ok_inj in E. subst t.
  unfold popped_values in Ep. apply bind_ok in Ep as (v & Ev & Ep). apply ok_inj in Ep. subst p.
  pose proof (scan_validate _ _ H Ev) as Hv. destruct H as [_ _ H3]. pose proof (scan_pattern _ 0 H3) as Hp. unfold condition.
  etransitivity.
  - ss ltac:(fail). eapply scan_seq; [exact Hp|]. ss ltac:(fail). eapply scan_seq; [exact Hv|]. ss ltac:(fail).
  - unfold gact_decl, typ, action_ct. cbn [ctoks]. unfold params_toks, popped_cond, stack_cond, pop_cond, stack_err, pop_err, never_err.
    cbn [app]. rewrite <- ?app_assoc. cbn [app]. rewrite <- ?app_assoc. cbn [app]. rewrite <- ?app_assoc. cbn [app]. reflexivity.
Qed.

(** ** The module of actions *)

Definition variant_decl (v : str * str) : list tok := typ (fst v) ([TPun 61] ++ code_of (snd v) ++ [TNl]).
Lemma scan_variant v : ident (fst v) -> tame (snd v) -> scan SNone (tx "type " ++ fst v ++ tx " = " ++ snd v ++ tx "
") = (variant_decl v, SNone).
Proof.
  destruct v as [n c]. cbn [fst snd]. intros Hn (ts & E & _). unfold variant_decl, code_of. cbn [fst snd]. rewrite E. apply code_piece in E. apply ident_wordy in Hn. etransitivity.
  - ss ltac:(first [exact Hn|fail 1]). rewrite <- (app_nil_r (tx "
")). eapply piece_then; [exact E|reflexivity|lit_eval|]. ss idtac.
  - unfold typ. rewrite <- ?app_assoc. cbn [app]. reflexivity.
Qed.
Definition emit_cond (k : nat) : list tok := [word "prodIdx"; word "extends"; TNum (N.of_nat k)].
Definition emit_call (k : nat) : list tok :=
  [word "actions"; TPun 46; TWord (tx "Action" ++ decn k); TPun 60; word "symbolStack"; TPun 62].
Definition emit_err : list tok := [TStr 96 (tx "error: invalid production idx: ${prodIdx}")].
Fixpoint emit_ct (ks : list nat) : ctype :=
  match ks with [] => CAtom emit_err | k :: ks => CCond (emit_cond k) (CAtom (emit_call k)) (emit_ct ks) end.
Definition emit_params : list tok :=
  [TPun 60; word "prodIdx"; word "extends"; word "number"; TPun 44; word "symbolStack"; word "extends"; word "type_defs"; TPun 46; word "Symbol"] ++
  (TPun 91 :: [] ++ [TPun 93]) ++ [TPun 62; TPun 61].
Definition emit_decl (l : list gaction) : list tok :=
  typ (tx "EmitProduction") (emit_params ++ ctoks (emit_ct (map ga_idx l)) ++ [TPun 59; TNl]).
Lemma scan_emit l : scan SNone (emit_text l) = (TNl :: emit_decl l, SNone).
Proof.
  unfold emit_text.
  assert (H : forall a : gaction, scan SNone (tx "prodIdx extends " ++ decn (ga_idx a) ++ tx " ? actions.Action" ++ decn (ga_idx a) ++ tx "<symbolStack> :") =
    (emit_cond (ga_idx a) ++ TPun 63 :: emit_call (ga_idx a) ++ [TPun 58], SNone)).
  { intros a. etransitivity; [ss ltac:(fail)|reflexivity]. }
  assert (G : forall b, ctoks (emit_ct (map ga_idx l)) ++ b =
    flat_map (fun a => emit_cond (ga_idx a) ++ TPun 63 :: emit_call (ga_idx a) ++ [TPun 58]) l ++ emit_err ++ b).
  { clear H. intros b. induction l as [|a l IH]; [reflexivity|]. cbn [flat_map map emit_ct ctoks]. rewrite <- ?app_assoc. cbn [app]. rewrite <- ?app_assoc.
    cbn [app]. rewrite IH. reflexivity. }
  etransitivity; [ss ltac:(intros a _; apply H)|]. unfold emit_decl, typ. rewrite G. reflexivity.
Qed.

Definition acts_body (ast : list aprod) (l : list gaction) : list tok :=
  flat_map variant_decl (variants ast) ++ [TNl] ++ emit_decl l ++ [TNl] ++ flat_map gact_decl l ++ [TNl].
Definition acts_toks (ast : list aprod) (l : list gaction) : list tok :=
  [word "export"; word "declare"; word "module"; word "actions"] ++ (TPun 123 :: ([TNl] ++ acts_body ast l) ++ [TPun 125]) ++ [TNl].
Record readable_acts (ast : list aprod) (l : list gaction) : Prop := ReadableActs {
  rs_vars : forall v, In v (variants ast) -> ident (fst v) /\ tame_type (snd v);
  rs_acts : forall a, In a l -> readable_action a }.
Lemma tame_type_tame t : tame_type t -> tame t.
Proof. intros (ts & H1 & H2 & _). exists ts. auto. Qed.
Lemma scan_actions ast l t : readable_acts ast l -> actions_text ast l = Ok t -> scan SNone t = (acts_toks ast l, SNone).
Proof.
  intros [H1 H2] E. unfold actions_text in E. apply bind_ok in E as (ts & Et & E). apply ok_inj in E. subst t.
  assert (Hv : scan SNone (variants_text ast) = (flat_map variant_decl (variants ast), SNone)).
  { unfold variants_text. eapply scan_flat_map. intros v Hv. apply scan_variant; [|apply tame_type_tame]; apply H1; auto. }
  assert (Ha : scan SNone (flat_map (fun t => t ++ tx "
") ts) = (flat_map gact_decl l, SNone)).
  { clear -Et H2. revert ts Et. induction l as [|a l IH]; intros ts E; cbn [mapM] in E.
    - apply ok_inj in E. subst ts. reflexivity.
    - apply bind_ok in E as (t & E1 & E). apply bind_ok in E as (ts' & E2 & E). apply ok_inj in E. subst ts. cbn [flat_map].
      apply scan_seq with SNone; [apply scan_gaction; auto; apply H2; left; auto|]. apply IH; auto. intros b Hb. apply H2. right. auto. }
  etransitivity.
  - ss ltac:(fail). eapply scan_seq; [exact Hv|]. eapply scan_seq; [apply scan_emit|]. ss ltac:(fail). eapply scan_seq; [exact Ha|]. ss ltac:(fail).
  - unfold acts_toks, acts_body. cbn [app]. rewrite <- ?app_assoc. cbn [app]. rewrite <- ?app_assoc. cbn [app]. rewrite <- ?app_assoc. cbn [app]. reflexivity.
Qed.

(** ** Brackets of the actions *)

Lemma inert_pattern l : forall i, inert (pattern_toks i l).
Proof.
  induction l as [|p l IH]; intros i; [exact inert_nil|].
  destruct p as [n p|s|s|s]; cbn [pattern_toks]; unfold pattern_tok; (apply inert_app; [inr|apply IH]).
Qed.
Lemma deep_pattern l : forall i, deep (pattern_toks i l).
Proof.
  induction l as [|p l IH]; intros i; [exact deep_nil|].
  destruct p as [n p|s|s|s]; cbn [pattern_toks]; unfold pattern_tok; (apply deep_app; [dp|apply IH]).
Qed.
Lemma tame_level t : tame t -> level 0 (code_of t) = Some 0.
Proof. intros (ts & E & H). unfold code_of. rewrite E. exact H. Qed.

Definition no_kw (n : list N) : Prop := n <> tx "type" /\ n <> tx "module".
Lemma quiet_word n : no_kw n -> quiet (TWord n) = true.
Proof. intros [H1 H2]. unfold quiet, flat_tok. cbn [opens closes negb andb is_word]. rewrite !(proj2 (eqb_neq _ _)) by auto. reflexivity. Qed.
Definition calm_param (p : aparam) : Prop := match p with PNamed n (PStr _) | PNamed n (PReg _) => no_kw n | _ => True end.

Lemma inert_checks idx i p : Forall inert (fst (check_toks idx i p)) /\ Forall inert (snd (check_toks idx i p)).
Proof.
  destruct p as [n [n' p|s|s|s]|s|s|s]; cbn [check_toks fst snd]; unfold token_cond, value_cond; split; repeat (constructor; [inr|]); constructor.
Qed.
Lemma sm_checks idx i p : Forall sm1 (fst (check_toks idx i p)) /\ Forall sm1 (snd (check_toks idx i p)).
Proof.
  destruct p as [n [n' p|s|s|s]|s|s|s]; cbn [check_toks fst snd]; unfold token_cond, value_cond; split; repeat (constructor; [split; [sm; dp|discriminate]|]); constructor.
Qed.
Lemma calm_checks idx i p : calm_param p -> Forall calm (fst (check_toks idx i p)) /\ Forall calm (snd (check_toks idx i p)).
Proof.
  assert (V : forall n l, no_kw n -> calm l -> calm (value_cond n ++ l)).
  { intros n l H Hl. unfold value_cond. apply calm_app; [|exact Hl]. clm; inr. apply calm_cons; [apply quiet_word, H|exact calm_nil]. }
  destruct p as [n [n' p|s|s|s]|s|s|s]; cbn [check_toks fst snd]; unfold token_cond; intros H; split; try (constructor; fail);
    repeat (constructor; [lazymatch goal with |- calm (value_cond ?n ++ ?l) => apply (V n l); [exact H|clm] | |- _ => clm; inr end|]); constructor.
Qed.

Fixpoint ct_all (P : list tok -> Prop) (c : ctype) : Prop := match c with CAtom a => P a | CCond c t e => P c /\ ct_all P t /\ ct_all P e end.
Lemma ct_inert c : ct_all inert c -> inert (ctoks c).
Proof.
  induction c as [a|c t IHt e IHe]; cbn [ct_all ctoks]; [auto|]. intros (H1 & H2 & H3). apply inert_app; [auto|].
  apply inert_cons; [reflexivity|]. apply inert_app; [auto|]. apply inert_cons; [reflexivity|auto].
Qed.
Lemma ct_calm c : ct_all calm c -> calm (ctoks c).
Proof.
  induction c as [a|c t IHt e IHe]; cbn [ct_all ctoks]; [auto|]. intros (H1 & H2 & H3). apply calm_app; [auto|].
  apply calm_cons; [reflexivity|]. apply calm_app; [auto|]. apply calm_cons; [reflexivity|auto].
Qed.
Lemma ct_ok_all c : ct_all sm1 c -> ct_ok c.
Proof. induction c as [a|c t IHt e IHe]; cbn [ct_all ct_ok]; [auto|]. tauto. Qed.
Lemma chain_all P cs : forall c es, Forall P cs -> ct_all P c -> Forall P es -> ct_all P (chain cs c es).
Proof.
  induction cs as [|x cs IH]; intros c es H1 H2 H3; [exact H2|]. destruct es as [|e es]; [exact H2|]. cbn [chain ct_all].
  inversion H1; subst. inversion H3; subst. split; [auto|]. split; auto.
Qed.
Lemma checks_all (P : list tok -> Prop) (Q : aparam -> Prop) idx :
  (forall i p, Q p -> Forall P (fst (check_toks idx i p)) /\ Forall P (snd (check_toks idx i p))) ->
  forall l i, Forall Q l -> Forall P (fst (checks_toks idx i l)) /\ Forall P (snd (checks_toks idx i l)).
Proof.
  intros H. induction l as [|p l IH]; intros i F; [split; constructor|]. inversion F as [|x y F1 F2]; subst. cbn [checks_toks fst snd].
  destruct (H i p F1) as [A1 A2]. destruct (IH (S i) F2) as [B1 B2]. split; apply Forall_app; auto.
Qed.
Lemma action_all (P : list tok -> Prop) (Q : aparam -> Prop) a :
  (forall i p, Q p -> Forall P (fst (check_toks (ga_idx a) i p)) /\ Forall P (snd (check_toks (ga_idx a) i p))) ->
  Forall Q (ga_inputs a) -> P (pop_cond (pop_amount a)) -> P (popped_cond (ga_inputs a)) -> P stack_cond -> P (stack_err (ga_idx a)) ->
  P (pop_err (ga_idx a)) -> P never_err -> P (call_toks a (code_of (ga_code a))) -> ct_all P (action_ct a).
Proof.
  intros H F P1 P2 P3 P4 P5 P6 P7. destruct (checks_all P Q (ga_idx a) H (ga_inputs a) 1 F) as [A B].
  unfold action_ct, valid_ct. cbn [ct_all].
  assert (C : ct_all P (chain (fst (checks_toks (ga_idx a) 1 (ga_inputs a))) (CAtom (call_toks a (code_of (ga_code a)))) (rev (snd (checks_toks (ga_idx a) 1 (ga_inputs a)))))).
  { apply chain_all; [assumption|assumption|]. apply Forall_rev. assumption. }
  tauto.
Qed.
Lemma inert_act a : readable_action a -> ct_all inert (action_ct a).
Proof.
  intros [_ H _]. apply action_all with (Q := fun _ => True).
  - intros i p _. apply inert_checks.
  - apply Forall_forall. auto.
  - unfold pop_cond. inr.
  - unfold popped_cond. inr. apply inert_pattern.
  - unfold stack_cond. inr.
  - unfold stack_err. inr.
  - unfold pop_err. inr.
  - unfold never_err. inr.
  - unfold call_toks. inr. apply inert_balanced, tame_level, H.
Qed.
Lemma sm_act a : readable_action a -> ct_ok (action_ct a).
Proof.
  intros [_ H _]. apply ct_ok_all, action_all with (Q := fun _ => True).
  - intros i p _. apply sm_checks.
  - apply Forall_forall. auto.
  - split; [|discriminate]. unfold pop_cond. sm; dp.
  - split; [|discriminate]. unfold popped_cond. sm; dp. apply deep_pattern.
  - split; [|discriminate]. unfold stack_cond. sm; dp.
  - split; [|discriminate]. unfold stack_err. sm; dp.
  - split; [|discriminate]. unfold pop_err. sm; dp.
  - split; [|discriminate]. unfold never_err. sm; dp.
  - split; [|discriminate]. unfold call_toks. sm; dp. apply deep_balanced, tame_level, H.
Qed.
Lemma calm_act a : readable_action a -> Forall calm_param (ga_inputs a) -> ct_all calm (action_ct a).
Proof.
  intros [_ H _] Hc. apply action_all with (Q := calm_param).
  - intros i p Hp. apply calm_checks. exact Hp.
  - exact Hc.
  - unfold pop_cond. clm; inr.
  - unfold popped_cond. clm; inr. apply inert_pattern.
  - unfold stack_cond. clm; inr.
  - unfold stack_err. clm; inr.
  - unfold pop_err. clm; inr.
  - unfold never_err. clm; inr.
  - unfold call_toks. clm; inr. apply inert_balanced, tame_level, H.
Qed.
Lemma inert_emit l : inert (emit_decl l).
Proof.
  unfold emit_decl. apply inert_typ. unfold emit_params. inr. apply ct_inert. induction (map ga_idx l) as [|k ks IH]; cbn [emit_ct ct_all].
  - unfold emit_err. inr.
  - split; [unfold emit_cond; inr|]. split; [unfold emit_call; inr|exact IH].
Qed.
Lemma calm_emit ks : ct_all calm (emit_ct ks).
Proof.
  induction ks as [|k ks IH]; cbn [emit_ct ct_all].
  - unfold emit_err. clm.
  - split; [unfold emit_cond; clm|]. split; [unfold emit_call; clm|exact IH].
Qed.
Lemma sm_emit ks : ct_ok (emit_ct ks).
Proof.
  apply ct_ok_all. induction ks as [|k ks IH]; cbn [emit_ct ct_all].
  - split; [unfold emit_err; sm|discriminate].
  - split; [split; [unfold emit_cond; sm|discriminate]|]. split; [split; [unfold emit_call; sm|discriminate]|exact IH].
Qed.
Lemma inert_variant v : tame (snd v) -> inert (variant_decl v).
Proof. intros H. unfold variant_decl. apply inert_typ. inr. apply inert_balanced, tame_level, H. Qed.
Lemma inert_acts ast l : readable_acts ast l -> inert (acts_body ast l).
Proof.
  intros [H1 H2]. unfold acts_body. inr.
  - apply inert_flat_map. intros v Hv. apply inert_variant, tame_type_tame, H1, Hv.
  - apply inert_emit.
  - apply inert_flat_map. intros a Ha. unfold gact_decl. apply inert_typ. unfold params_toks. inr. apply ct_inert, inert_act, H2, Ha.
Qed.
