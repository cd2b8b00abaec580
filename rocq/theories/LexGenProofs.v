(** The tokens of the text lex_gen.rs writes, and what they read as. *)
From Coq Require Import Ascii String.
From Verif Require Import Base Text Regex Nfa Dfa Lex TsText TsTextFacts TsScan TsTables TsTablesFacts LexGen.
Local Open Scope list_scope.

(** ** [gen_arithmetic] *)

Definition succ_toks (i : nat) : list tok := [TNum (N.of_nat i); TPun 58; TNum (N.of_nat (i + 1)); TPun 59; TNl].
Definition pred_toks (i : nat) : list tok := [TNum (N.of_nat (i + 1)); TPun 58; TNum (N.of_nat i); TPun 59; TNl].
Definition open_toks (n : string) : list tok := [word "export"; word "type"; word n; TPun 61; TPun 123; TNl].

Lemma scan_succ i : scan SNone (tx "    " ++ decn i ++ tx ": " ++ decn (i + 1) ++ tx ";
") = (succ_toks i, SNone).
Proof. etransitivity; [sc idtac|reflexivity]. Qed.
Lemma scan_pred i : scan SNone (tx "    " ++ decn (i + 1) ++ tx ": " ++ decn i ++ tx ";
") = (pred_toks i, SNone).
Proof. etransitivity; [sc idtac|reflexivity]. Qed.
Lemma scan_arithmetic n : scan SNone (gen_arithmetic n) =
  ((open_toks "SuccTable" ++ flat_map succ_toks (seq 0 n) ++ [TNl; TPun 125; TNl; TNl]) ++
   (open_toks "PredTable" ++ flat_map pred_toks (seq 0 n) ++ [TNl; TPun 125; TNl]), SNone).
Proof.
  unfold gen_arithmetic. etransitivity; [sc ltac:(intros i _; first [apply scan_succ|apply scan_pred])|].
  rewrite <- !app_assoc. cbn [app]. reflexivity.
Qed.

Definition succ_table (n : nat) : list (key * value) := map (fun i => (KNum (N.of_nat i), VNum (N.of_nat (i + 1)))) (seq 0 n).
Definition pred_table (n : nat) : list (key * value) := map (fun i => (KNum (N.of_nat (i + 1)), VNum (N.of_nat i))) (seq 0 n).

Lemma read_arithmetic n : Decls ((open_toks "SuccTable" ++ flat_map succ_toks (seq 0 n) ++ [TNl; TPun 125; TNl; TNl]) ++
   (open_toks "PredTable" ++ flat_map pred_toks (seq 0 n) ++ [TNl; TPun 125; TNl]))
  [(tx "SuccTable", VObj (succ_table n)); (tx "PredTable", VObj (pred_table n))].
Proof.
  assert (G : forall r, Mem (TNl :: TPun 125 :: r) [] r) by (intros r; apply m_nl, m_end).
  assert (B1 : block (open_toks "SuccTable" ++ flat_map succ_toks (seq 0 n) ++ [TNl; TPun 125; TNl; TNl]) [(tx "SuccTable", VObj (succ_table n))]).
  { apply block_decl with (b := TNl) (bs := [TNl]); try reflexivity. intros r. unfold open_toks. cbn [app]. apply decl_exp. apply v_obj.
    apply m_nl. rewrite <- app_assoc. unfold succ_table. rewrite <- (app_nil_r (map _ _)). apply Mem_flat_map; [|apply G].
    intros i ts l0 _ Hm. eapply m_cons; [apply k_num|apply v_num|apply sep_semi|apply m_nl; exact Hm]. }
  assert (B2 : block (open_toks "PredTable" ++ flat_map pred_toks (seq 0 n) ++ [TNl; TPun 125; TNl]) [(tx "PredTable", VObj (pred_table n))]).
  { apply block_decl with (b := TNl) (bs := []); try reflexivity. intros r. unfold open_toks. cbn [app]. apply decl_exp. apply v_obj.
    apply m_nl. rewrite <- app_assoc. unfold pred_table. rewrite <- (app_nil_r (map _ _)). apply Mem_flat_map; [|apply G].
    intros i ts l0 _ Hm. eapply m_cons; [apply k_num|apply v_num|apply sep_semi|apply m_nl; exact Hm]. }
  pose proof (block_app _ _ _ _ B1 B2 [] []) as H. rewrite app_nil_r in H. apply H. apply ds_end. reflexivity.
Qed.

(** ** [lex_ctx_text] *)

Definition tbool (b : bool) : tok := if b then word "true" else word "false".
Definition wordn (s : string) (i : nat) : list N := tx s ++ decn i.

Definition tokdef_toks (e : nat * (list N * bool)) : list tok :=
  [word "type"; TWord (wordn "TokenDef" (fst e)); TPun 61; TPun 123; TNl; word "kind"; TPun 58;
   TStr 34 (fst (snd e)); TPun 44; TNl; word "hasValue"; TPun 58; tbool (snd (snd e)); TNl; TPun 125; TNl; TNl].
Definition tokref_toks (e : nat * (list N * bool)) : list tok :=
  [TNum (N.of_nat (fst e)); TPun 58; TWord (wordn "TokenDef" (fst e)); TPun 59].
Definition label_toks (m : rng) : list tok :=
  [TPun 123; word "from"; TPun 58; TNum (fst m); TPun 44; word "to"; TPun 58; TNum (snd m); TPun 125].
Definition state_toks (x : nat * ts_state) : list tok :=
  [word "type"; TWord (wordn "State" (fst x)); TPun 61; TPun 123; TNl; word "to"; TPun 58; TPun 91] ++
  tjoin [TPun 44] (map (fun y => [TNum (N.of_nat (fst y))]) (ts_labels (snd x))) ++
  [TPun 93; TPun 44; TNl; word "labels"; TPun 58; TPun 91] ++
  tjoin [TPun 44] (map (fun y => label_toks (snd y)) (ts_labels (snd x))) ++
  [TPun 93; TPun 44; TNl; word "accepting"; TPun 58; tbool (ts_accepting (snd x)); TNl; TPun 125; TNl; TNl].
Definition d2n_toks (x : nat * list nat) : list tok :=
  [TNum (N.of_nat (fst x)); TPun 58; TPun 91] ++ tjoin [TPun 44] (map (fun s => [TNum (N.of_nat s)]) (snd x)) ++ [TPun 93; TPun 44; TNl].

(** The tokens with their kinds as TypeScript reads them. *)
Definition kinded (e : nat * (list N * bool)) : nat * (list N * bool) :=
  (fst e, (match unq 34 (fst (snd e)) with Some k => k | None => [] end, snd (snd e))).

Lemma scan_tokdef e : unq 34 (fst (snd e)) <> None -> scan SNone (token_def_text e) = (tokdef_toks (kinded e), SNone).
Proof.
  destruct e as [i [n b]]. cbn [fst snd]. intros Hn. unfold token_def_text, kinded, tokdef_toks. cbn [fst snd].
  destruct (unq 34 n) as [k|] eqn:E; [|congruence]. clear Hn. destruct b; cbn [dec_bool]; (etransitivity; [sc ltac:(exact E)|reflexivity]).
Qed.
Lemma scan_tokref (e : nat * (list N * bool)) :
  scan SNone (tx "  " ++ decn (fst e) ++ tx ": TokenDef" ++ decn (fst e) ++ tx ";") = (tokref_toks e, SNone).
Proof. etransitivity; [sc idtac|reflexivity]. Qed.
Lemma scan_label m : scan SNone (label_text m) = (label_toks m, SNone).
Proof. unfold label_text. etransitivity; [sc idtac|reflexivity]. Qed.
Lemma piece_nums {A} (f : A -> nat) sep l : In sep [tx ","; tx ", "] ->
  piece (join sep (map (fun x => decn (f x)) l)) (tjoin [TPun 44] (map (fun x => [TNum (N.of_nat (f x))]) l)).
Proof.
  intros Hs. apply piece_join.
  - destruct Hs as [<-|[<-|[]]]; reflexivity.
  - destruct Hs as [<-|[<-|[]]]; vm_compute; reflexivity.
  - intros x _. apply piece_dec.
Qed.
Lemma piece_labels (l : list (nat * rng)) :
  piece (join (tx ",") (map (fun x => label_text (snd x)) l)) (tjoin [TPun 44] (map (fun x => label_toks (snd x)) l)).
Proof. apply piece_join; [reflexivity|vm_compute; reflexivity|]. intros x _. apply piece_closed. apply scan_label. Qed.
Lemma scan_state x : scan SNone (state_text (fst x) (snd x)) = (state_toks x, SNone).
Proof.
  destruct x as [i [ls b]]. unfold state_text, state_toks. cbn [fst snd ts_labels ts_accepting].
  etransitivity.
  - sc idtac. eapply piece_then; [apply piece_nums; left; reflexivity|reflexivity|lit_eval|].
    eapply piece_then; [apply piece_labels|reflexivity|lit_eval|].
    instantiate (1 := SNone). instantiate (1 := if b then _ else _). destruct b; cbn [dec_bool]; sc idtac.
  - destruct b; cbn [app]; reflexivity.
Qed.
Lemma scan_d2n x : scan SNone (decn (fst x) ++ tx ": " ++ nfa_set_text (snd x) ++ tx ",
") = (d2n_toks x, SNone).
Proof.
  destruct x as [i l]. unfold nfa_set_text, d2n_toks. cbn [fst snd]. etransitivity.
  - sc idtac. eapply piece_then; [apply (piece_nums (fun x => x)); right; left; reflexivity|reflexivity|lit_eval|]. sc idtac.
  - cbn [app]. reflexivity.
Qed.

Definition lex_toks (c : lex_ctx) : list tok :=
  [TNl; TNl] ++
  flat_map tokdef_toks (map kinded (lc_tokens c)) ++
  (open_toks "Tokens" ++ flat_map tokref_toks (lc_tokens c) ++ [TNl; TPun 125; TNl; TNl]) ++
  flat_map state_toks (enum (lc_states c)) ++
  ([word "export"; word "type"; word "States"; TPun 61; TPun 91] ++
   tjoin [TPun 44] (map (fun x => [TWord (wordn "State" (fst x))]) (enum (lc_states c))) ++ [TPun 93; TPun 59; TNl; TNl]) ++
  (open_toks "DFAtoNFA" ++ flat_map d2n_toks (lc_dfa_to_nfa c) ++ [TPun 125]).

Lemma flat_map_map {A B C} (f : A -> B) (g : B -> list C) l : flat_map g (map f l) = flat_map (fun x => g (f x)) l.
Proof. induction l as [|x l IH]; simpl; congruence. Qed.

Lemma wordy_wordn s i : wordy (tx s) -> wordy (wordn s i).
Proof.
  intros H. apply wordy_app; auto. eapply Forall_impl; [|apply dec_digits]. intros c Hc. unfold word_char. rewrite Hc. apply orb_true_r.
Qed.

Lemma scan_lex c : (forall e, In e (lc_tokens c) -> unq 34 (fst (snd e)) <> None) -> scan SNone (lex_ctx_text c) = (lex_toks c, SNone).
Proof.
  intros Hn. unfold lex_ctx_text, lex_toks. rewrite flat_map_map. etransitivity.
  - sc ltac:(intros x Hx; first [apply scan_tokdef, Hn, Hx|apply scan_tokref|apply scan_state|apply scan_d2n]).
    eapply piece_then.
    + apply (piece_join (fun x => tx "State" ++ decn (fst x)) (fun x => [TWord (wordn "State" (fst x))])) with (sl := [TPun 44]); [reflexivity|vm_compute; reflexivity|].
      intros x _. apply piece_word. apply (wordy_wordn "State"). split; [reflexivity|]. repeat (apply Forall_cons; [reflexivity|]). apply Forall_nil.
    + reflexivity.
    + lit_eval.
    + sc ltac:(intros x Hx; first [apply scan_tokdef, Hn, Hx|apply scan_tokref|apply scan_state|apply scan_d2n]).
  - cbn [app]. rewrite <- ?app_assoc. cbn [app]. rewrite <- ?app_assoc. cbn [app]. reflexivity.
Qed.

(** The tables the text declares. *)
Definition state_of (s : ts_state) : ts_lstate := TsLState (map (fun y => N.of_nat (fst y)) (ts_labels s)) (map snd (ts_labels s)) (ts_accepting s).
Definition tables_of (c : lex_ctx) : lex_tables :=
  LexTables (map state_of (lc_states c))
            (map (fun e => (N.of_nat (fst e), snd (kinded e))) (lc_tokens c))
            (map (fun e => (N.of_nat (fst e), map N.of_nat (snd e))) (lc_dfa_to_nfa c)).

Definition lex_decls (c : lex_ctx) : list (list N * value) :=
  map (fun e => (wordn "TokenDef" (fst e), vtoken (snd e))) (map kinded (lc_tokens c)) ++
  [(tx "Tokens", VObj (map (fun e => (KNum (N.of_nat (fst e)), VWord (wordn "TokenDef" (fst e)))) (lc_tokens c)))] ++
  map (fun x => (wordn "State" (fst x), vstate (state_of (snd x)))) (enum (lc_states c)) ++
  [(tx "States", VArr (map (fun x => VWord (wordn "State" (fst x))) (enum (lc_states c))))] ++
  [(tx "DFAtoNFA", VObj (map (fun x => (KNum (N.of_nat (fst x)), VArr (map (fun s => VNum (N.of_nat s)) (snd x)))) (lc_dfa_to_nfa c)))].

Lemma tbool_val b r : Val (tbool b :: r) (vbool b) r.
Proof. destruct b; apply v_word. Qed.

Lemma block_tokdef e : block (tokdef_toks e) [(wordn "TokenDef" (fst e), vtoken (snd e))].
Proof.
  apply block_decl with (b := TNl) (bs := [TNl]); try reflexivity. intros r. unfold tokdef_toks. cbn [app]. apply decl_type, v_obj, m_nl.
  eapply m_cons; [apply k_word|apply v_str|apply sep_comma|]. apply m_nl.
  eapply m_cons; [apply k_word|apply tbool_val|apply sep_nl|]. apply m_end.
Qed.
Lemma val_label m r : Val (label_toks m ++ r) (vlabel m) r.
Proof.
  unfold label_toks. cbn [app]. apply v_obj.
  eapply m_cons; [apply k_word|apply v_num|apply sep_comma|].
  eapply m_cons; [apply k_word|apply v_num|apply sep_end|]. apply m_end.
Qed.
Lemma block_state x : block (state_toks x) [(wordn "State" (fst x), vstate (state_of (snd x)))].
Proof.
  apply block_decl with (b := TNl) (bs := [TNl]); try reflexivity. intros r. unfold state_toks. rewrite <- ?app_assoc. cbn [app]. rewrite <- ?app_assoc. cbn [app]. apply decl_type, v_obj, m_nl.
  eapply m_cons; [apply k_word| |apply sep_comma|].
  { apply v_arr. cbn [state_of tl_to]. rewrite map_map.
    apply (Elems_join (fun y : nat * rng => [TNum (N.of_nat (fst y))]) (fun y => VNum (N.of_nat (fst y)))). intros y r' _. apply v_num. }
  apply m_nl. eapply m_cons; [apply k_word| |apply sep_comma|].
  { apply v_arr. cbn [state_of tl_labels]. rewrite map_map. apply (Elems_join (fun y : nat * rng => label_toks (snd y)) (fun y => vlabel (snd y))).
    intros y r' _. apply val_label. }
  apply m_nl. eapply m_cons; [apply k_word|apply tbool_val|apply sep_nl|]. apply m_end.
Qed.

Lemma read_lex c : Decls (lex_toks c) (lex_decls c).
Proof.
  unfold lex_toks, lex_decls.
  apply (block_blank [TNl; TNl] eq_refl _ _).
  apply block_flat_map; [intros e _; apply block_tokdef|].
  refine (block_decl _ _ _ TNl [TNl] _ eq_refl eq_refl _ _ _).
  { intros r. unfold open_toks. cbn [app]. apply decl_exp, v_obj, m_nl. rewrite <- app_assoc, <- (app_nil_r (map _ _)).
    apply (Mem_flat_map tokref_toks); [|apply m_nl, m_end].
    intros e ts l0 _ Hm. eapply m_cons; [apply k_num|apply v_word|apply sep_semi|exact Hm]. }
  apply block_flat_map; [intros x _; apply block_state|].
  refine (block_decl _ _ _ (TPun 59) [TNl; TNl] _ eq_refl eq_refl _ _ _).
  { intros r. cbn [app]. apply decl_exp, v_arr. rewrite <- app_assoc. cbn [app].
    apply (Elems_join (fun x : nat * ts_state => [TWord (wordn "State" (fst x))])). intros x r' _. apply v_word. }
  apply ds_last. unfold open_toks. cbn [app]. apply decl_exp, v_obj, m_nl. rewrite <- (app_nil_r (map _ _)).
  apply (Mem_flat_map d2n_toks); [|apply m_end].
  intros [i l] ts l0 _ Hm. unfold d2n_toks. cbn [fst snd]. rewrite <- ?app_assoc. cbn [app]. rewrite <- ?app_assoc. cbn [app].
  eapply m_cons; [apply k_num| |apply sep_comma|apply m_nl; exact Hm].
  apply v_arr. apply (Elems_join (fun s => [TNum (N.of_nat s)])). intros s r' _. apply v_num.
Qed.

Lemma NoDup_app_intro {A} (l1 l2 : list A) : NoDup l1 -> NoDup l2 -> (forall x, In x l1 -> In x l2 -> False) -> NoDup (l1 ++ l2).
Proof.
  induction 1 as [|x l Hx Hl IH]; intros H2 Hd; auto. simpl. constructor.
  - rewrite in_app_iff. intros [H|H]; auto. apply (Hd x); simpl; auto.
  - apply IH; auto. intros y Hy. apply Hd. right. auto.
Qed.
Lemma wordn_inj s i j : wordn s i = wordn s j -> i = j.
Proof. unfold wordn. intros E. apply app_inv_head in E. apply decn_inj. auto. Qed.
Lemma NoDup_wordn {A} s (f : A -> nat) l : NoDup (map f l) -> NoDup (map (fun x => wordn s (f x)) l).
Proof.
  intros H. rewrite <- (map_map f (wordn s)). apply FinFun.Injective_map_NoDup; auto. intros i j. apply wordn_inj.
Qed.
Lemma enum_fst {A} (l : list A) : map fst (enum l) = seq 0 (length l).
Proof.
  unfold enum. generalize 0. induction l as [|x l IH]; intros k; simpl; auto. rewrite IH. auto.
Qed.
Lemma decn_not_s i : decn i <> tx "s".
Proof. intros E. pose proof (dec_digits (N.of_nat i)) as H. unfold decn in E. rewrite E in H. inversion H. discriminate. Qed.

Lemma lex_decls_nodup c : NoDup (map fst (lc_tokens c)) -> NoDup (map fst (lex_decls c)).
Proof.
  intros Hn. unfold lex_decls. rewrite !map_app, !map_map. cbn [map fst].
  apply NoDup_app_intro; [|apply NoDup_app_intro; [|apply NoDup_app_intro; [|apply NoDup_app_intro|]|]|].
  - apply (NoDup_wordn "TokenDef" fst). exact Hn.
  - constructor; [intros []|constructor].
  - apply (NoDup_wordn "State" fst). rewrite enum_fst. apply seq_NoDup.
  - constructor; [intros []|constructor].
  - constructor; [intros []|constructor].
  - intros x [<-|[]] [E|[]]. discriminate E.
  - intros x Hx [E|[E|[]]]; apply in_map_iff in Hx as (y & <- & _).
    + unfold wordn in E. change (tx "States") with (tx "State" ++ tx "s") in E. apply app_inv_head in E. eapply decn_not_s; eauto.
    + discriminate E.
  - intros x [<-|[]] Hx. rewrite !in_app_iff in Hx. destruct Hx as [Hx|[[E|[]]|[E|[]]]]; try discriminate E.
    apply in_map_iff in Hx as (y & E & _). discriminate E.
  - intros x Hx Hx2. apply in_map_iff in Hx as (y & <- & _). rewrite !in_app_iff in Hx2. destruct Hx2 as [[E|[]]|[Hx|[[E|[]]|[E|[]]]]]; try discriminate E.
    apply in_map_iff in Hx as (y' & E & _). discriminate E.
Qed.

Lemma Forall2_map_r {A B C} (P : A -> B -> Prop) (f : C -> A) (g : C -> B) l : (forall x, In x l -> P (f x) (g x)) -> Forall2 P (map f l) (map g l).
Proof. induction l as [|x l IH]; intros H; constructor; [apply H; left; auto|]. apply IH. intros y Hy. apply H. right. auto. Qed.

Lemma enum_snd {A} (l : list A) : map snd (enum l) = l.
Proof. unfold enum. generalize 0. induction l as [|x l IH]; intros k; simpl; auto. rewrite IH. auto. Qed.

Lemma readlex_ctx c : (forall e, In e (lc_tokens c) -> unq 34 (fst (snd e)) <> None) ->
  NoDup (map fst (lc_tokens c)) -> NoDup (map fst (lc_dfa_to_nfa c)) -> ReadLex (lex_ctx_text c) (tables_of c).
Proof.
  intros Hq Hn Hd.
  exists (lex_toks c), (lex_decls c), (map (fun x => VWord (wordn "State" (fst x))) (enum (lc_states c))),
    (map (fun e => (KNum (N.of_nat (fst e)), VWord (wordn "TokenDef" (fst e)))) (lc_tokens c)),
    (map (fun x => (KNum (N.of_nat (fst x)), VArr (map (fun s => VNum (N.of_nat s)) (snd x)))) (lc_dfa_to_nfa c)).
  assert (HK : forall {A} (l : list (nat * A)) (f : nat * A -> value), NoDup (map fst l) -> NoDup (keys (map (fun e => (KNum (N.of_nat (fst e)), f e)) l))).
  { intros A l f H. unfold keys. rewrite map_map. cbn [fst]. rewrite <- (map_map fst (fun i => KNum (N.of_nat i))). apply FinFun.Injective_map_NoDup; auto.
    intros i j E. injection E as E. lia. }
  split; [apply toks_of, scan_lex; auto|]. split; [apply read_lex|]. split; [apply lex_decls_nodup; auto|].
  split; [unfold lex_decls; rewrite !in_app_iff; simpl; auto 10|]. split.
  { unfold tables_of. cbn [lt_states]. rewrite <- (enum_snd (lc_states c)) at 2. rewrite map_map. apply Forall2_map_r.
    intros x Hx. exists (wordn "State" (fst x)). split; auto. unfold lex_decls. rewrite !in_app_iff. right. right. left.
    apply in_map_iff. exists x. auto. }
  split; [unfold lex_decls; rewrite !in_app_iff; simpl; auto 10|]. split; [apply (HK _ _ (fun e => VWord (wordn "TokenDef" (fst e)))); auto|]. split.
  { unfold tables_of. cbn [lt_tokens]. apply Forall2_map_r. intros e He. cbn [fst snd]. split; auto.
    exists (wordn "TokenDef" (fst e)). split; auto. unfold lex_decls. rewrite !in_app_iff. left. rewrite map_map. apply in_map_iff. exists e. auto. }
  split; [unfold lex_decls; rewrite !in_app_iff; simpl; auto 10|]. split; [apply (HK _ _ (fun x => VArr (map (fun s => VNum (N.of_nat s)) (snd x)))); auto|].
  unfold tables_of. cbn [lt_d2n]. rewrite map_map. apply map_ext. intros x. cbn [fst snd]. rewrite map_map. auto.
Qed.
