(** The generated actions: which are declared, what they pop, check and push. *)
From Coq Require Import Ascii String.
From Verif Require Import Base Text Regex Nfa Dfa Lex Grammar GrammarSpec GrammarProofs First Item Table TableProofs TableFacts LexGrammar Lalr EndProofs
  LexGen TsText TsTextFacts TsScan TsModule TsModuleFacts ParseGenSpec LexGenProofs ParseGen ParseGenProofs ParseGenActs ParseGenFile.
Local Open Scope list_scope.

(** ** Declarations in a row *)

Lemma declared_none {A} (nm : A -> list N) (r : A -> list tok) l n b :
  (forall x, In x l -> calm (r x) /\ nm x <> tx "type" /\ nm x <> n) ->
  declared (tx "type") n 0 (flat_map (fun x => typ (nm x) (r x)) l ++ b) = declared (tx "type") n 0 b.
Proof.
  induction l as [|x l IH]; intros H; [reflexivity|]. cbn [flat_map]. rewrite <- app_assoc. destruct (H x (or_introl eq_refl)) as (H1 & H2 & H3).
  rewrite declared_typ by auto. replace (eqb (nm x) n) with false by (symmetry; apply eqb_neq; auto). cbn [app]. apply IH. intros y Hy. apply H. right. auto.
Qed.
Lemma declared_one {A} (nm : A -> list N) (r : A -> list tok) l1 x l2 n b : nm x = n -> calm (r x) -> nm x <> tx "type" ->
  (forall y, In y l1 -> calm (r y) /\ nm y <> tx "type" /\ nm y <> n) -> (forall y, In y l2 -> calm (r y) /\ nm y <> tx "type" /\ nm y <> n) ->
  declared (tx "type") n 0 (flat_map (fun x => typ (nm x) (r x)) (l1 ++ x :: l2) ++ b) =
  (r x ++ flat_map (fun x => typ (nm x) (r x)) l2 ++ b) :: declared (tx "type") n 0 b.
Proof.
  intros E Hc Ht H1 H2. rewrite flat_map_app. cbn [flat_map]. rewrite <- !app_assoc. rewrite declared_none by exact H1.
  rewrite declared_typ by auto. rewrite E, eqb_refl. cbn [app]. f_equal. apply declared_none. exact H2.
Qed.

(** ** The declarations of the actions *)

Definition act_rest (a : gaction) : list tok := params_toks ++ ctoks (action_ct a) ++ [TNl].
Definition act_name (a : gaction) : list N := tx "Action" ++ decn (ga_idx a).
Lemma calm_act_rest a : readable_action a -> Forall calm_param (ga_inputs a) -> calm (act_rest a).
Proof. intros H1 H2. unfold act_rest, params_toks. clm; inr. apply ct_calm, calm_act; auto. Qed.
Lemma calm_emit_rest ks : calm (emit_params ++ ctoks (emit_ct ks) ++ [TPun 59; TNl]).
Proof. unfold emit_params. clm; inr. apply ct_calm, calm_emit. Qed.
Lemma calm_variant (v : str * str) : tame_type (snd v) -> calm ([TPun 61] ++ code_of (snd v) ++ [TNl]).
Proof.
  intros (ts & E & H1 & H2). unfold code_of. rewrite E. apply calm_app; [apply calm_quiet; reflexivity|]. apply calm_app; [|apply calm_quiet; reflexivity].
  apply calm_balanced; auto.
Qed.
Lemma gact_flat l : flat_map gact_decl l = flat_map (fun a => typ (act_name a) (act_rest a)) l.
Proof. reflexivity. Qed.
Lemma act_not_type k : tx "Action" ++ decn k <> tx "type".
Proof. discriminate. Qed.
Lemma act_not_emit k : tx "Action" ++ decn k <> tx "EmitProduction".
Proof. discriminate. Qed.

(** The names of a module of actions do not clash. *)
Record free (vars : list (str * str)) (l : list gaction) : Prop := Free {
  fr_vars : forall v, In v vars -> tame_type (snd v) /\ fst v <> tx "type" /\ fst v <> tx "EmitProduction" /\ forall k, fst v <> tx "Action" ++ decn k;
  fr_acts : forall a, In a l -> readable_action a /\ Forall calm_param (ga_inputs a);
  fr_idx : NoDup (map ga_idx l) }.

Lemma acts_vars vars n b : (forall v, In v vars -> tame_type (snd v) /\ fst v <> tx "type" /\ fst v <> n) ->
  declared (tx "type") n 0 (flat_map variant_decl vars ++ b) = declared (tx "type") n 0 b.
Proof.
  intros H. unfold variant_decl. apply (declared_none fst). intros v Hv. apply H in Hv as (H1 & H2 & H3). split; auto. apply calm_variant, H1.
Qed.
Lemma declared_nl n b : declared (tx "type") n 0 (TNl :: b) = declared (tx "type") n 0 b.
Proof. reflexivity. Qed.
Lemma acts_act ast l1 a l2 : free (variants ast) (l1 ++ a :: l2) ->
  declared (tx "type") (act_name a) 0 (TNl :: acts_body ast (l1 ++ a :: l2)) = [act_rest a ++ flat_map gact_decl l2 ++ [TNl]].
Proof.
  intros [H1 H2 H3]. rewrite declared_nl. unfold acts_body. rewrite acts_vars.
  2:{ intros v Hv. destruct (H1 v Hv) as (V1 & V2 & _ & V3). split; [exact V1|]. split; [exact V2|apply V3]. }
  cbn [app]. rewrite declared_nl. unfold emit_decl. rewrite declared_typ; [|apply calm_emit_rest|discriminate].
  replace (eqb (tx "EmitProduction") (act_name a)) with false by (symmetry; apply eqb_neq; discriminate). cbn [app]. rewrite declared_nl.
  assert (G : forall b l', (l' = l1 \/ l' = l2) -> In b l' -> calm (act_rest b) /\ act_name b <> tx "type" /\ act_name b <> act_name a).
  { intros b l' Hl Hb. assert (In b (l1 ++ a :: l2)) as Hin by (apply in_or_app; destruct Hl; subst; cbn; auto). apply H2 in Hin as [R C].
    split; [apply calm_act_rest; auto|]. split; [apply act_not_type|]. intros E. apply app_inv_head, decn_inj in E.
    rewrite map_app in H3. cbn [map] in H3. apply NoDup_remove_2 in H3. apply H3. rewrite <- E. apply in_or_app. destruct Hl; subst; [left|right]; apply in_map, Hb. }
  rewrite !gact_flat. destruct (H2 a) as [R C]; [apply in_or_app; right; left; auto|].
  rewrite (declared_one act_name act_rest l1 a l2 (act_name a) [TNl]); [reflexivity|reflexivity|apply calm_act_rest; auto|apply act_not_type|..].
  - intros b Hb. apply (G b l1); auto.
  - intros b Hb. apply (G b l2); auto.
Qed.
Lemma acts_emit ast l : free (variants ast) l ->
  declared (tx "type") (tx "EmitProduction") 0 (TNl :: acts_body ast l) =
  [(emit_params ++ ctoks (emit_ct (map ga_idx l)) ++ [TPun 59; TNl]) ++ [TNl] ++ flat_map gact_decl l ++ [TNl]].
Proof.
  intros [H1 H2 H3]. rewrite declared_nl. unfold acts_body. rewrite acts_vars.
  2:{ intros v Hv. destruct (H1 v Hv) as (V1 & V2 & V3 & _). auto. }
  cbn [app]. rewrite declared_nl. unfold emit_decl. rewrite declared_typ; [|apply calm_emit_rest|discriminate]. rewrite eqb_refl. cbn [app]. f_equal.
  rewrite declared_nl. rewrite !gact_flat. rewrite (declared_none act_name act_rest); [reflexivity|]. intros a Ha. apply H2 in Ha as [R C].
  split; [apply calm_act_rest; auto|]. split; [apply act_not_type|apply act_not_emit].
Qed.
Lemma acts_none ast l k : free (variants ast) l -> ~ In k (map ga_idx l) -> declared (tx "type") (tx "Action" ++ decn k) 0 (TNl :: acts_body ast l) = [].
Proof.
  intros [H1 H2 H3] Hk. rewrite declared_nl. unfold acts_body. rewrite acts_vars.
  2:{ intros v Hv. destruct (H1 v Hv) as (V1 & V2 & _ & V3). split; [exact V1|]. split; [exact V2|apply V3]. }
  cbn [app]. rewrite declared_nl. unfold emit_decl. rewrite declared_typ; [|apply calm_emit_rest|discriminate].
  replace (eqb (tx "EmitProduction") _) with false by (symmetry; apply eqb_neq; discriminate). cbn [app]. rewrite declared_nl.
  rewrite !gact_flat. rewrite (declared_none act_name act_rest); [reflexivity|]. intros a Ha. pose proof (H2 a Ha) as [R C].
  split; [apply calm_act_rest; auto|]. split; [apply act_not_type|]. intros E. apply app_inv_head, decn_inj in E. apply Hk. rewrite <- E. apply in_map, Ha.
Qed.

Lemma after_nl b : after (TNl :: b).
Proof. exists TNl, b. split; auto. split; [reflexivity|discriminate]. Qed.
Lemma act_conditional ast l1 a l2 : free (variants ast) (l1 ++ a :: l2) -> Conditional (TNl :: acts_body ast (l1 ++ a :: l2)) (act_name a) (action_ct a).
Proof.
  intros H. exists [word "symbolStack"; word "extends"; word "type_defs"; TPun 46; word "Symbol"; TPun 91; TPun 93]. do 2 eexists. split; [|split; [|split]].
  - rewrite acts_act by exact H. unfold act_rest, params_toks. cbn [app]. rewrite <- app_assoc. cbn [app]. reflexivity.
  - cbn. intuition discriminate.
  - apply ct_read; [|apply after_nl]. apply sm_act. apply H. apply in_or_app. right. left. auto.
  - reflexivity.
Qed.
Lemma emit_conditional ast l : free (variants ast) l -> Conditional (TNl :: acts_body ast l) (tx "EmitProduction") (emit_ct (map ga_idx l)).
Proof.
  intros H. exists [word "prodIdx"; word "extends"; word "number"; TPun 44; word "symbolStack"; word "extends"; word "type_defs"; TPun 46; word "Symbol"; TPun 91; TPun 93].
  do 2 eexists. split; [|split; [|split]].
  - rewrite acts_emit by exact H. unfold emit_params. cbn [app]. rewrite <- app_assoc. cbn [app]. reflexivity.
  - cbn. intuition discriminate.
  - apply ct_read; [apply sm_emit|]. exists (TPun 59). eexists. split; [reflexivity|]. split; [reflexivity|discriminate].
  - reflexivity.
Qed.
Lemma split_first {A} (c : A) a : forall a' b b', ~ In c a -> ~ In c a' -> a ++ c :: b = a' ++ c :: b' -> a = a' /\ b = b'.
Proof.
  induction a as [|x a IH]; intros [|y a'] b b' H H' E; cbn [app] in E.
  - injection E as <-. auto.
  - injection E as <- _. destruct H'. left. auto.
  - injection E as -> _. destruct H. left. auto.
  - injection E as <- E. apply IH in E as [-> ->]; auto; [intros K; apply H; right; auto|intros K; apply H'; right; auto].
Qed.
Lemma Conditional_det body n c c' : Conditional body n c -> Conditional body n c' -> c = c'.
Proof.
  intros (ps & r & r1 & E1 & N1 & C1 & _) (ps' & r' & r2 & E2 & N2 & C2 & _). rewrite E1 in E2. injection E2 as E.
  assert (K : forall ps r, ps ++ TPun 62 :: TPun 61 :: r = (ps ++ [TPun 62]) ++ TPun 61 :: r) by (intros; rewrite <- app_assoc; reflexivity).
  rewrite !K in E. apply split_first in E as [_ <-].
  - destruct (CT_det _ _ _ C1 _ _ C2) as [-> _]. reflexivity.
  - intros H. apply in_app_or in H as [H|[H|[]]]; [auto|discriminate].
  - intros H. apply in_app_or in H as [H|[H|[]]]; [auto|discriminate].
Qed.

(** ** Dispatch *)

Lemma emit_eval holds p ks : (forall k, holds (index_test k) = (k =? p)%N) ->
  ceval holds (emit_ct ks) = if existsb (fun k => (N.of_nat k =? p)%N) ks then calls_action p else invalid_index.
Proof.
  intros H. induction ks as [|k ks IH]; [reflexivity|]. cbn [emit_ct ceval existsb]. change (emit_cond k) with (index_test (N.of_nat k)). rewrite H.
  destruct (N.of_nat k =? p)%N eqn:E; cbn [orb]; [|exact IH]. apply N.eqb_eq in E. subst p. reflexivity.
Qed.

(** ** Grammar files *)

Lemma enum_map {A} (l : list A) : map fst (enum l) = seq 0 (length l).
Proof. apply enum_fst. Qed.
Lemma file_free ast g : file_ast ast -> grammar_from_ast ast = Ok g -> quotes_ok g -> codes_ok ast -> names_free ast ->
  free (variants ast) (map action_of (enum (all_bodies ast))).
Proof.
  intros Hf Hg Hq Hc [Hn1 Hn2]. destruct (file_acts _ _ Hf Hg Hq Hc) as [_ Ha]. constructor.
  - intros v Hv. apply variants_in in Hv as (p & Hp & ->). cbn [fst snd]. destruct (Hn1 p Hp) as (H1 & H2 & H3). split; [apply Hc, Hp|]. split; auto.
    split; auto. intros k. apply H3.
  - intros a Hin. split; [auto|]. apply in_map_iff in Hin as ([i [n b]] & <- & Hin). apply in_enum, in_all_bodies in Hin as (p & Hp & En & Hb).
    cbn [action_of ga_inputs fst snd] in *. apply Forall_forall. intros q Hq'. apply in_map_iff in Hq' as (x & <- & Hx).
    destruct x as [s|[m|] ty|s|s| |]; cbn [param_of calm_param]; auto.
    destruct ty; auto; apply (Hn2 p b m _ Hp Hb Hx).
  - rewrite map_map. cbn [action_of ga_idx]. rewrite <- (map_map fst (fun i => 1 + i)), enum_fst. apply NoDup_map_inj; [intros; lia|apply seq_NoDup].
Qed.

Lemma rules_prods ast g : grammar_from_ast ast = Ok g ->
  Forall2 (fun nb p => p_name p = fst nb /\ p_syms p = map lower (ab_syms (snd nb)) /\ p_fn p = Some (ab_fn (snd nb))) (rules ast) (tl (g_prods g)).
Proof.
  intros Hg. destruct (grammar_from_ast_ok _ _ Hg) as (st & _ & _ & _ & ->). cbn [tl]. unfold rules. clear.
  induction ast as [|p ast IH]; [constructor|]. cbn [flat_map]. apply Forall2_app; auto.
  induction (ap_bodies p) as [|b l IHl]; [constructor|]. cbn [map]. constructor; auto.
Qed.

Lemma enum_split {A} (l : list A) k x : nth_error l k = Some x -> exists l1 l2, enum l = l1 ++ (k, x) :: l2.
Proof. intros H. apply enum_In, in_split in H. exact H. Qed.

Lemma pushes_eq a code : call_toks a code = pushes (ga_name a) code.
Proof. unfold call_toks, pushes. cbn [app]. rewrite <- !app_assoc. reflexivity. Qed.
Lemma chain_true cs : forall c es, ceval (fun _ => true) (chain cs c es) = ceval (fun _ => true) c.
Proof. induction cs as [|x cs IH]; intros c [|e es]; auto. cbn [chain ceval]. apply IH. Qed.
Lemma action_true a : ceval (fun _ => true) (action_ct a) = pushes (ga_name a) (code_of (ga_code a)).
Proof. unfold action_ct. cbn [ceval]. unfold valid_ct. rewrite chain_true. cbn [ceval]. apply pushes_eq. Qed.
Lemma spine_chain cs : forall c es, length cs = length es -> spine c = [] -> spine (chain cs c es) = combine cs (map CAtom es).
Proof. induction cs as [|x cs IH]; intros c [|e es] H Hc; try discriminate; auto. cbn [chain spine map combine]. f_equal. apply IH; auto. Qed.

(** The names that the pattern of an action binds. *)
Fixpoint pattern_names (i : nat) (l : list aparam) : list (list N) :=
  match l with
  | [] => []
  | PNamed n p :: l => (tx "__" ++ n) :: pattern_names i l
  | _ :: l => (tx "var" ++ decn i) :: pattern_names (S i) l
  end.
Lemma pattern_flat l : forall i, pattern_toks i l = flat_map (fun n => [word "infer"; TWord n; TPun 44]) (pattern_names i l).
Proof. induction l as [|[n p|s|s|s] l IH]; intros i; cbn [pattern_toks pattern_names flat_map]; [reflexivity|..]; rewrite IH; reflexivity. Qed.
Lemma pattern_bound l : Forall file_named l -> forall i, Forall2 bound l (pattern_names i (map param_of l)).
Proof.
  induction 1 as [|x l Hx Hl IH]; intros i; [constructor|]. cbn [map].
  destruct x as [s|[n|] ty|s|s| |]; try destruct Hx as []; cbn [param_of pattern_names]; constructor; try apply IH; cbn [bound]; auto.
Qed.

(** The checks of an action. *)
Lemma checks_checked idx l : Forall file_named l -> forall i,
  Forall2 (fun x c => hd_error c = Some (TWord (tx "__" ++ snd x))) (checked i l) (fst (checks_toks idx i (map param_of l))) /\
  Forall2 (fun x e => names_position (CAtom e) (fst x) idx) (checked i l) (snd (checks_toks idx i (map param_of l))).
Proof.
  assert (P : forall q k i, ~ In 40%N (tx k) -> names_position (CAtom [TStr q (err_text k i idx)]) i idx) by (intros q k i Hk; exists q, (tx k); auto).
  assert (N1 : ~ In 40%N (tx "error: invalid symbol")) by (vm_compute; intuition discriminate).
  assert (N2 : ~ In 40%N (tx "error: not a token")) by (vm_compute; intuition discriminate).
  induction 1 as [|x l Hx Hl IH]; intros i; [split; constructor|]. cbn [map checked checks_toks fst snd]. destruct (IH (S i)) as [I1 I2].
  destruct x as [s|[n|] ty|s|s| |]; try destruct Hx as []; cbn [param_of check_toks symbol_checks map app fst snd]; auto.
  destruct ty as [s|n' ty|s|s| |]; try destruct H0 as []; cbn [check_toks symbol_checks map app fst snd]; auto;
    (split; repeat (constructor; [first [reflexivity | apply P; auto]|]); auto).
Qed.
