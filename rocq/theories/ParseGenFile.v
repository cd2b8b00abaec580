(** The generated file of a grammar file: which tables and actions are in it. *)
From Coq Require Import Ascii String.
From Verif Require Import Base Text Regex Nfa Dfa Lex Grammar GrammarSpec GrammarProofs First Item Table TableProofs TableFacts LexGrammar Lalr EndProofs
  LexGen TsText TsTextFacts TsScan TsModule TsModuleFacts ParseGenSpec LexGenProofs ParseGen ParseGenProofs ParseGenActs.
Local Open Scope list_scope.

(** ** The tables are maps *)

Lemma action_put_ok t i k a t' : tbl_ok t -> action_put t i k a = Ok t' -> tbl_ok t'.
Proof. unfold action_put. destruct (tbl_get t i k); [discriminate|]. intros H E. injection E as <-. apply tbl_insert_ok; auto. Qed.
Lemma make_tables_ok hash g t : make_tables hash g = Ok t -> tbl_ok (t_action t) /\ tbl_ok (t_goto t).
Proof.
  unfold make_tables. intros E. apply bind_ok in E as (lr & El & E). apply bind_ok in E as ([la m] & Em & E).
  apply bind_ok in E as ([act got] & Et & E). injection E as <-. cbn [t_action t_goto].
  unfold make_lalr_tables in Et. apply bind_ok in Et as (a & Ea & Et). apply bind_ok in Et as (b & Eb & Et). injection Et as <- <-. split.
  - eapply (foldM_inv (fun t => tbl_ok t)); [apply tbl_ok_nil| |exact Ea]. intros e t0 t1 _ H E. unfold action_state in E.
    eapply (foldM_inv (fun t => tbl_ok t)); [exact H| |exact E]. clear. intros [it las] t t' _ H E. unfold action_item in E.
    apply bind_ok in E as (o & Eo & E). destruct o as [x|].
    + destruct (is_term x); [|injection E as <-; auto]. destruct (get_token_idx g x) as [k|]; [|discriminate].
      apply bind_ok in E as (gi & Eg & E). destruct gi; [|injection E as <-; auto]. eapply action_put_ok; eauto.
    + eapply (foldM_inv (fun t => tbl_ok t)); [exact H| |exact E]. clear. intros k t t' _ H E. unfold reduce_entry in E.
      destruct (_ && _); eapply action_put_ok; eauto.
  - eapply (foldM_inv (fun t => tbl_ok t)); [apply tbl_ok_nil| |exact Eb]. intros e t0 t1 _ H E. unfold goto_state in E.
    eapply (foldM_inv (fun t => tbl_ok t)); [exact H| |exact E]. clear. intros nt t t' _ H E. unfold goto_entry in E.
    apply bind_ok in E as (j & Ej & E). destruct (is_index lr j) as [k|].
    + destruct (map_get k m); [|discriminate]. injection E as <-. apply tbl_insert_ok; auto.
    + destruct (is_index la j); injection E as <-; auto. apply tbl_insert_ok; auto.
Qed.

(** ** Grammar files *)

Lemma file_symbols ast g : file_ast ast -> grammar_from_ast ast = Ok g -> forall x, In x (g_tokens g) ->
  match x with SEps => False | SNon n => ident n | _ => True end.
Proof.
  intros [_ Hf] Hg x Hx. destruct (grammar_from_ast_ok _ _ Hg) as (st & Hs & W & Est & Ep).
  apply find_some in Hs as [Hs _]. destruct (Hf st Hs) as [Hid _]. destruct (wg_tokens _ _ W) as (l & El & _ & Hin). rewrite El in Hx.
  destruct Hx as [<-|Hx]; [exact I|]. apply Hin in Hx as (p & Hp & Hx). rewrite Ep in Hp. destruct Hp as [<-|Hp].
  - destruct Hx as [<-|[]]. exact Hid.
  - apply in_flat_map in Hp as (a & Ha & Hp). apply in_map_iff in Hp as (b & <- & Hb). destruct (Hf a Ha) as [_ Hb'].
    destruct (Hb' b Hb) as [Hne HF]. cbn [from_ast p_syms] in Hx. apply in_map_iff in Hx as (y & <- & Hy).
    rewrite Forall_forall in HF. specialize (HF y Hy). apply file_named_lower in HF as (H1 & _ & H3).
    destruct (lower y) as [s|n|r| |]; auto.
Qed.
Lemma file_names ast g : file_ast ast -> grammar_from_ast ast = Ok g -> forall p, In p (g_prods g) -> quotable 34 (p_name p).
Proof.
  intros [_ Hf] Hg p Hp. destruct (grammar_from_ast_ok _ _ Hg) as (st & Hs & W & Est & Ep).
  apply find_some in Hs as [Hs _]. destruct (Hf st Hs) as [Hid _]. rewrite Ep in Hp. destruct Hp as [<-|Hp].
  - cbn [p_name]. unfold aug_name, quotable. apply Forall_app. split; [apply ident_quotable; auto|]. constructor; [lia|constructor].
  - apply in_flat_map in Hp as (a & Ha & Hp). apply in_map_iff in Hp as (b & <- & Hb). destruct (Hf a Ha) as [Hn _]. apply ident_quotable; auto.
Qed.
Lemma tbl_get_In {K V} `{Ord K} (t : table K V) i k v : tbl_ok t -> tbl_get t i k = Some v <-> exists row, In (i, row) t /\ In (k, v) row.
Proof.
  intros [H1 H2]. unfold tbl_get. split.
  - destruct (map_get i t) as [row|] eqn:E; [|discriminate]. intros E'. exists row. split; apply map_get_In; auto.
  - intros (row & Hi & Hk). rewrite (In_map_get _ _ _ H1 Hi). apply In_map_get; auto. eapply H2; eauto.
Qed.
Lemma file_readable ast g hash t : file_ast ast -> grammar_from_ast ast = Ok g -> make_tables hash g = Ok t -> quotes_ok g -> readable ast g t.
Proof.
  intros Hf Hg Ht Hq. constructor.
  - intros p Hp. apply Hf in Hp as [H _]. exact H.
  - intros x Hx. pose proof (file_symbols _ _ Hf Hg x Hx) as H. destruct x as [s|n|r| |]; cbn [sym_readable]; auto.
  - apply (file_names ast); auto.
  - intros [i row] [A j] Hr He. cbn [fst snd] in *. destruct (make_tables_ok _ _ _ Ht) as [_ Ho].
    assert (E : tbl_get (t_goto t) i A = Some j) by (apply tbl_get_In; eauto).
    destruct (grammar_from_ast_ok _ _ Hg) as (st & _ & W & _). destruct (make_tables_built _ _ _ _ W Ht) as (lr0 & m & B).
    apply (b_goto _ _ _ _ _ B) in E as (s & _ & HA & _). exact (file_symbols _ _ Hf Hg _ HA).
Qed.

(** ** The actions of a grammar file *)

Definition param_of (x : isym) : aparam :=
  let base y := match y with IStr s => PStr s | INon n => PNon n | IReg r => PReg r | _ => PStr [] end in
  match x with INamed (Some n) ty => PNamed n (base ty) | _ => base x end.
Lemma params_file l : Forall file_named l -> params_of l = Ok (map param_of l).
Proof.
  induction 1 as [|x l Hx Hl IH]; [reflexivity|]. cbn [params_of map]. rewrite IH.
  destruct x as [s|[n|] ty|s|s| |]; try destruct Hx; try reflexivity. destruct ty; try destruct H0; reflexivity.
Qed.
Definition action_of (ib : nat * (str * abody)) : gaction :=
  GAction (fst (snd ib)) (1 + fst ib) (ab_fn (snd (snd ib))) (map param_of (ab_syms (snd (snd ib)))).
Lemma in_all_bodies ast x : In x (all_bodies ast) -> exists p, In p ast /\ fst x = ap_name p /\ In (snd x) (ap_bodies p).
Proof. unfold all_bodies. intros H. apply in_flat_map in H as (p & Hp & H). apply in_map_iff in H as (b & <- & Hb). eauto. Qed.
Lemma gactions_file ast : file_ast ast -> gactions ast = Ok (map action_of (enum (all_bodies ast))).
Proof.
  intros [_ Hf]. unfold gactions. assert (H : forall ib, In ib (enum (all_bodies ast)) -> Forall file_named (ab_syms (snd (snd ib)))).
  { intros [i nb] Hin. apply in_enum, in_all_bodies in Hin as (p & Hp & _ & Hb). destruct (Hf p Hp) as [_ H]. apply H, Hb. }
  revert H. induction (enum (all_bodies ast)) as [|x l IH]; intros H; [reflexivity|]. cbn [mapM map].
  rewrite params_file by (apply H; left; auto). cbn [bind]. rewrite IH by (intros; apply H; right; auto). reflexivity.
Qed.
Lemma variants_in ast v : In v (variants ast) -> exists p, In p ast /\ v = (ap_name p, ap_ts p).
Proof.
  unfold variants. assert (G : forall l m, In v (fold_left (fun m p => map_insert (ap_name p) (ap_ts p) m) l m) -> In v m \/ exists p, In p l /\ v = (ap_name p, ap_ts p)).
  { induction l as [|p l IH]; intros m H; cbn [fold_left] in H; auto. apply IH in H as [H|(q & Hq & E)]; [|right; exists q; split; [right|]; auto].
    assert (K : In v m \/ v = (ap_name p, ap_ts p)).
    { clear -H. unfold map_insert in H. induction m as [|[k w] m IH]; cbn [map_alter] in H.
      - destruct H as [<-|[]]. auto.
      - destruct (cmp (ap_name p) k) eqn:E.
        + apply cmp_eq in E. subst k. destruct H as [<-|H]; [auto|left; right; auto].
        + destruct H as [<-|H]; auto.
        + destruct H as [<-|H]; [left; left; auto|]. apply IH in H as [H|H]; auto. left. right. auto. }
    destruct K as [K|K]; auto. right. exists p. split; [left|]; auto. }
  intros H. apply G in H as [[]|H]. exact H.
Qed.
Lemma file_acts ast g : file_ast ast -> grammar_from_ast ast = Ok g -> quotes_ok g -> codes_ok ast ->
  readable_acts ast (map action_of (enum (all_bodies ast))).
Proof.
  intros Hf Hg Hq Hc. constructor.
  - intros v Hv. apply variants_in in Hv as (p & Hp & ->). cbn [fst snd]. split; [apply Hf, Hp|apply Hc, Hp].
  - intros a Ha. apply in_map_iff in Ha as ([i [n b]] & <- & Hin). apply in_enum, in_all_bodies in Hin as (p & Hp & En & Hb). cbn [fst snd] in En, Hb. subst n.
    destruct (proj2 Hf p Hp) as [Hn Hbs]. destruct (Hbs b Hb) as [_ HF]. constructor; cbn [action_of ga_name ga_code ga_inputs fst snd].
    + exact Hn.
    + apply Hc in Hp as [_ H]. apply H, Hb.
    + apply Forall_forall. intros q Hq'. apply in_map_iff in Hq' as (x & <- & Hx). rewrite Forall_forall in HF. specialize (HF x Hx).
      assert (Ht : In (lower x) (g_tokens g)).
      { destruct (grammar_from_ast_ok _ _ Hg) as (st & _ & W & _ & Ep). apply (token_of_body g _ W (from_ast p b)).
        - rewrite Ep. right. apply in_flat_map. exists p. split; auto. apply in_map. exact Hb.
        - cbn [from_ast p_syms]. apply in_map. exact Hx. }
      destruct x as [s|[n|] ty|s|s| |]; try destruct HF as []; cbn [param_of readable_param]; auto.
      destruct ty as [s|n' ty|s|s| |]; try destruct H0 as []; auto. cbn [lower] in Ht. split; auto. apply Hq. left. exact Ht.
Qed.

(** ** The text is generated *)

Lemma mapM_total {A B} (f : A -> res B) l : (forall x, In x l -> exists y, f x = Ok y) -> exists r, mapM f l = Ok r.
Proof.
  induction l as [|x l IH]; intros H; [cbn; eauto|]. destruct (H x (or_introl eq_refl)) as (y & E). destruct IH as (r & Er); [intros z Hz; apply H; right; auto|].
  exists (y :: r). cbn [mapM]. rewrite E, Er. reflexivity.
Qed.
Lemma checks_total idx i p : readable_param p -> exists r, checks idx i p = Ok r.
Proof. destruct p as [n [n' p|s|s|s]|s|s|s]; cbn [readable_param checks]; intros H; try destruct H; eauto. Qed.
Lemma all_checks_total idx l : Forall readable_param l -> forall i, exists r, all_checks idx i l = Ok r.
Proof.
  induction 1 as [|p l Hp Hl IH]; intros i; [cbn; eauto|]. cbn [all_checks]. destruct (checks_total idx i p Hp) as ([c e] & ->).
  destruct (IH (S i)) as ([cs es] & ->). cbn. eauto.
Qed.
Lemma gaction_total a : readable_action a -> exists t, gaction_text a = Ok t.
Proof.
  intros [_ _ H]. unfold gaction_text, popped_values, validate_params. destruct (all_checks_total (ga_idx a) _ H 1) as ([cs es] & ->). cbn. eauto.
Qed.
Lemma generate_total ast g hash t L : file_ast ast -> grammar_from_ast ast = Ok g -> make_tables hash g = Ok t ->
  quotes_ok g -> codes_ok ast -> exists text, parse_generate ast (Lalr g L t) = Ok text.
Proof.
  intros Hf Hg Ht Hq Hc. pose proof (file_acts _ _ Hf Hg Hq Hc) as [_ Ha]. unfold parse_generate. rewrite gactions_file by auto. cbn [bind l_grammar l_tables].
  unfold type_defs_text, tokens_text, productions_text, actions_text.
  destruct (mapM_total token_text (enum (g_tokens g))) as (r1 & ->).
  { intros [i x] Hx. apply in_enum in Hx. pose proof (file_symbols _ _ Hf Hg x Hx) as H. destruct x; try destruct H; unfold token_text; cbn [fst snd]; eauto. }
  destruct (mapM_total (production_text g) (enum (g_prods g))) as (r2 & ->).
  { intros [i p] Hp. apply in_enum in Hp. unfold production_text. cbn [snd]. destruct (mapM_total (token_index g) (p_syms p)) as (r & ->).
    - intros y Hx. unfold token_index. destruct (grammar_from_ast_ok _ _ Hg) as (st & _ & W & _).
      pose proof (token_of_body g _ W p y Hp Hx) as H. apply get_token_idx_In in H as (j & ->). eauto.
    - cbn. eauto. }
  destruct (mapM_total gaction_text (map action_of (enum (all_bodies ast)))) as (r3 & ->).
  { intros a H. apply gaction_total, Ha, H. }
  cbn. eauto.
Qed.

(** ** Its tokens *)

Definition imports_toks : list tok :=
  [word "import"; TPun 42; word "as"; word "U"; word "from"; TStr 34 (tx "./util"); TNl;
   word "import"; TPun 42; word "as"; word "L"; word "from"; TStr 34 (tx "./lex"); TNl; TNl].
Lemma generate_toks ast g t L text : readable ast g t -> file_ast ast -> readable_acts ast (map action_of (enum (all_bodies ast))) ->
  parse_generate ast (Lalr g L t) = Ok text ->
  scan SNone text = (defs_toks ast g t ++ imports_toks ++ acts_toks ast (map action_of (enum (all_bodies ast))), SNone).
Proof.
  intros Hr Hf Ha E. unfold parse_generate in E. rewrite gactions_file in E by auto. cbn [bind l_grammar l_tables] in E.
  apply bind_ok in E as (d & Ed & E). apply bind_ok in E as (a & Ea & E). apply ok_inj in E. subst text.
  apply scan_seq with SNone; [apply scan_type_defs; auto|]. apply scan_seq with SNone; [unfold imports_text; lit_eval|]. apply scan_actions; auto.
Qed.

Lemma inert_exp n r : calm r -> inert (exp_typ n r).
Proof. intros H. unfold exp_typ. apply inert_cons; [reflexivity|]. apply inert_typ, calm_inert, H. Qed.
Lemma declared_exp m r n b : calm r -> tx m <> tx "type" ->
  declared (tx "type") n 0 (exp_typ m r ++ b) = (if eqb (tx m) n then [r ++ b] else []) ++ declared (tx "type") n 0 b.
Proof.
  intros H Hm. rewrite <- declared_typ by auto. unfold exp_typ. cbn [app declared].
  replace (is_word (tx "type") (TWord (tx "export"))) with false by reflexivity. rewrite andb_false_r. reflexivity.
Qed.

Lemma inert_defs ast g t : inert (defs_body ast g t).
Proof.
  unfold defs_body. repeat first [apply inert_app | apply inert_exp]; try (inr; fail).
  - apply (calm_symbol ast).
  - apply calm_token.
  - apply (calm_tokens g).
  - apply calm_production.
  - apply (calm_productions g).
  - apply (calm_action (t_action t)).
  - apply (calm_goto (t_goto t)).
  - apply (calm_kinds g).
Qed.

(** ** The tables *)

Definition taction_of (a : action) : taction :=
  match a with Shift j => TShift (N.of_nat j) | Reduce r => TReduce (N.of_nat r) | Accept => TAccept end.
Definition kind_entry (x : nat * sym) : list (list N * N) := match kind_name (snd x) with Some n => [(n, N.of_nat (fst x))] | None => [] end.
Definition the_tables (g : grammar) (t : tables) : parse_tables := ParseTables
  (map (fun x => (N.of_nat (fst x), token_entry (snd x))) (enum (g_tokens g)))
  (map (fun x => (N.of_nat (fst x), (p_name (snd x), map (fun y => N.of_nat (index0 g y)) (p_syms (snd x))))) (enum (g_prods g)))
  (map (fun r => (N.of_nat (fst r), map (fun e => (N.of_nat (fst e), taction_of (snd e))) (snd r))) (t_action t))
  (map (fun r => (N.of_nat (fst r), map (fun e => (fst e, N.of_nat (snd e))) (snd r))) (t_goto t))
  (flat_map kind_entry (enum (g_tokens g))).

Lemma rotate {A B} (f : A -> list B) (x : B) l : flat_map (fun a => x :: f a) l ++ [x] = x :: flat_map (fun a => f a ++ [x]) l.
Proof. induction l as [|a l IH]; [reflexivity|]. cbn [flat_map app]. rewrite <- app_assoc, IH, <- app_assoc. reflexivity. Qed.
Lemma val_obj {A} (g : A -> list tok) (m : A -> key * value) l r :
  (forall x ts l0, In x l -> Mem ts l0 r -> Mem (g x ++ ts) (m x :: l0) r) ->
  Val ((TPun 123 :: (flat_map g l ++ [TNl]) ++ [TPun 125]) ++ r) (VObj (map m l)) r.
Proof.
  intros H. cbn [app]. rewrite <- !app_assoc. apply v_obj. rewrite <- (app_nil_r (map m l)). apply Mem_flat_map; auto. cbn [app]. apply m_nl, m_end.
Qed.

Lemma val_tokens g r : Val (skipn 1 (rest_of (tokens_decl g)) ++ r) (num_obj vpt (pt_tokens (the_tables g (Tables [] [] [])))) ([TNl; TNl] ++ r).
Proof.
  unfold tokens_decl, exp_typ, typ, rest_of. cbn [skipn app]. unfold num_obj, the_tables. cbn [pt_tokens]. rewrite map_map. cbn [fst snd].
  change (flat_map token_toks (enum (g_tokens g))) with
    (flat_map (fun x => TNl :: skipn 1 (token_toks x)) (enum (g_tokens g))). rewrite rotate. rewrite <- !app_assoc. apply v_obj. cbn [app]. apply m_nl.
  rewrite <- (app_nil_r (map _ _)). apply Mem_flat_map; [|cbn [app]; apply m_end].
  intros [i x] ts l0 _ HM. unfold token_toks. cbn [fst snd skipn app]. eapply m_cons; [apply k_num| |apply sep_nl|exact HM].
  rewrite <- ?app_assoc. apply v_obj. unfold vpt. cbn [app]. destruct (snd (token_entry x)); cbn [app].
  - eapply m_cons; [apply k_word|apply v_str|apply sep_comma|]. eapply m_cons; [apply k_word|apply v_str|apply sep_end|]. apply m_end.
  - eapply m_cons; [apply k_word|apply v_str|apply sep_end|]. apply m_end.
Qed.
Lemma val_prods g r : Val (skipn 1 (rest_of (productions_decl g)) ++ r) (num_obj vprod (pt_prods (the_tables g (Tables [] [] [])))) ([TNl; TNl] ++ r).
Proof.
  unfold productions_decl, exp_typ, typ, rest_of. cbn [skipn app]. unfold num_obj, the_tables. cbn [pt_prods]. rewrite map_map. cbn [fst snd].
  apply v_obj. rewrite <- !app_assoc. rewrite <- (app_nil_r (map _ _)). apply Mem_flat_map; [|cbn [app]; apply m_nl, m_end].
  intros [i x] ts l0 _ HM. unfold prod_toks. cbn [fst snd app]. eapply m_cons; [apply k_num| |apply sep_nl|exact HM].
  rewrite <- ?app_assoc. apply v_obj. cbn [app]. unfold vprod. cbn [fst snd]. eapply m_cons; [apply k_word|apply v_str|apply sep_comma|].
  eapply m_cons; [apply k_word| |apply sep_end|apply m_end]. rewrite <- ?app_assoc. cbn [app]. apply v_arr.
  induction (p_syms x) as [|y l IH]; [apply e_end|]. cbn [map flat_map app]. eapply e_cons; [apply v_num|exact IH].
Qed.
Lemma val_action t r : Val (skipn 1 (rest_of (action_decl t)) ++ r) (num_obj (num_obj vaction) (pt_action (the_tables (Grammar [] [] [] []) (Tables t [] [])))) (TNl :: r).
Proof.
  unfold action_decl, exp_typ, typ, rest_of. cbn [skipn app]. unfold num_obj, the_tables. cbn [pt_action t_action]. rewrite map_map. cbn [fst snd].
  apply v_obj. rewrite <- !app_assoc. rewrite <- (app_nil_r (map _ _)). apply Mem_flat_map; [|cbn [app]; apply m_nl, m_end].
  intros [i row] ts l0 _ HM. unfold arow_toks. cbn [fst snd app]. eapply m_cons; [apply k_num| |apply sep_nl|exact HM].
  apply v_obj. rewrite <- ?app_assoc. rewrite map_map. cbn [fst snd]. rewrite <- (app_nil_r (map _ _)).
  apply Mem_flat_map; [|cbn [app]; apply m_nl, m_end].
  intros [k a] ts' l1 _ HM'. unfold aentry_toks. cbn [fst snd app]. eapply m_cons; [apply k_num| |apply sep_nl|exact HM'].
  rewrite <- ?app_assoc. apply v_obj. destruct a; cbn [act_toks app]; unfold vaction; cbn [taction_of];
    (eapply m_cons; [apply k_word| |apply sep_nl|apply m_end]); [apply v_num|apply v_num|apply v_word].
Qed.
Lemma val_goto t r : Val (skipn 1 (rest_of (goto_decl t)) ++ r) (num_obj (name_obj VNum) (pt_goto (the_tables (Grammar [] [] [] []) (Tables [] t [])))) (TNl :: r).
Proof.
  unfold goto_decl, exp_typ, typ, rest_of. cbn [skipn app]. unfold num_obj, name_obj, the_tables. cbn [pt_goto t_goto]. rewrite map_map. cbn [fst snd].
  apply v_obj. rewrite <- !app_assoc. rewrite <- (app_nil_r (map _ _)). apply Mem_flat_map; [|cbn [app]; apply m_nl, m_end].
  intros [i row] ts l0 _ HM. unfold grow_toks. cbn [fst snd app]. eapply m_cons; [apply k_num| |apply sep_nl|exact HM].
  apply v_obj. rewrite <- ?app_assoc. rewrite map_map. cbn [fst snd]. rewrite <- (app_nil_r (map _ _)).
  apply Mem_flat_map; [|cbn [app]; apply m_nl, m_end].
  intros [k a] ts' l1 _ HM'. unfold gentry_toks. cbn [fst snd app]. apply m_nl. eapply m_cons; [apply k_word|apply v_num|apply sep_nl|exact HM'].
Qed.
Lemma val_kinds g r : Val (skipn 1 (rest_of (kinds_decl g)) ++ r) (name_obj VNum (pt_kinds (the_tables g (Tables [] [] [])))) (TNl :: r).
Proof.
  unfold kinds_decl, exp_typ, typ, rest_of. cbn [skipn app]. unfold name_obj, the_tables. cbn [pt_kinds].
  apply v_obj. rewrite <- !app_assoc. induction (enum (g_tokens g)) as [|[i x] l IH]; cbn [flat_map]; [cbn [app map]; apply m_nl, m_end|].
  unfold kind_toks, kind_entry at 1. cbn [fst snd]. destruct (kind_name x); cbn [app map]; [|exact IH].
  eapply m_cons; [apply k_str'|apply v_num|apply sep_nl|exact IH].
Qed.

Lemma declared_skip w n t r : is_word w t = false -> flat_tok t = true -> declared w n 0 (t :: r) = declared w n 0 r.
Proof.
  intros H1 H2. cbn [declared]. rewrite H1, andb_false_r. cbn [app]. unfold next_depth. unfold flat_tok in H2.
  destruct (opens t); [discriminate|]. destruct (closes t); [discriminate|reflexivity].
Qed.
Lemma declared_module m n b r : inert b -> eqb m (tx "module") = false ->
  declared (tx "module") n 0 ([word "export"; word "declare"; word "module"; TWord m; TPun 123] ++ b ++ TPun 125 :: r) =
  (if eqb m n then [TPun 123 :: b ++ TPun 125 :: r] else []) ++ declared (tx "module") n 0 r.
Proof.
  intros [Hb _] Hm. cbn [app]. rewrite !declared_skip by reflexivity. cbn [declared]. change (is_word (tx "module") (word "module")) with true.
  cbn [Nat.eqb andb]. f_equal. change (next_depth 0 (word "module")) with 0. cbn [is_word]. rewrite Hm. cbn [andb Nat.eqb app].
  change (next_depth 0 (TWord m)) with 0. cbn [Nat.eqb andb is_word app]. change (next_depth 0 (TPun 123)) with 1. rewrite Hb.
  cbn [declared Nat.eqb andb app]. reflexivity.
Qed.

Definition body_of (ast : list aprod) (g : grammar) (t : tables) : list tok := TNl :: defs_body ast g t.
Lemma inert_body ast g t : inert (body_of ast g t).
Proof. apply inert_cons; [reflexivity|apply inert_defs]. Qed.
Lemma calm_imports : calm imports_toks.
Proof. unfold imports_toks. clm. Qed.
Lemma acts_shape ast acts : acts_toks ast acts = [word "export"; word "declare"; word "module"; TWord (tx "actions"); TPun 123] ++ (TNl :: acts_body ast acts) ++ TPun 125 :: [TNl].
Proof. unfold acts_toks. cbn [app]. rewrite <- app_assoc. reflexivity. Qed.
Lemma defs_shape ast g t r : defs_toks ast g t ++ r = [word "export"; word "declare"; word "module"; TWord (tx "type_defs"); TPun 123] ++ body_of ast g t ++ TPun 125 :: TNl :: r.
Proof. unfold defs_toks, body_of. cbn [app]. rewrite <- app_assoc. reflexivity. Qed.
Lemma modules_declared ast g t acts n : readable_acts ast acts ->
  declared (tx "module") n 0 (defs_toks ast g t ++ imports_toks ++ acts_toks ast acts) =
  (if eqb (tx "type_defs") n then [TPun 123 :: body_of ast g t ++ TPun 125 :: TNl :: imports_toks ++ acts_toks ast acts] else []) ++
  (if eqb (tx "actions") n then [TPun 123 :: (TNl :: acts_body ast acts) ++ TPun 125 :: [TNl]] else []).
Proof.
  intros Ha. rewrite defs_shape. rewrite declared_module; [|apply inert_body|reflexivity]. f_equal.
  rewrite declared_skip by reflexivity. destruct calm_imports as [_ Hi]. rewrite Hi by (right; reflexivity).
  rewrite acts_shape, declared_module; [|apply inert_cons; [reflexivity|apply inert_acts, Ha]|reflexivity].
  cbn [declared]. rewrite app_nil_r. reflexivity.
Qed.
Lemma upto_inert b r : inert b -> upto 0 (b ++ TPun 125 :: r) = b.
Proof. intros [_ U]. rewrite U. cbn [upto closes N.eqb Pos.eqb orb]. apply app_nil_r. Qed.
Lemma module_defs ast g t acts : readable_acts ast acts ->
  Module (defs_toks ast g t ++ imports_toks ++ acts_toks ast acts) (tx "type_defs") (body_of ast g t).
Proof.
  intros Ha. eexists. split; [rewrite modules_declared by exact Ha; reflexivity|]. symmetry. apply upto_inert, inert_body.
Qed.
Lemma module_acts ast g t acts : readable_acts ast acts ->
  Module (defs_toks ast g t ++ imports_toks ++ acts_toks ast acts) (tx "actions") (TNl :: acts_body ast acts).
Proof.
  intros Ha. eexists. split; [rewrite modules_declared by exact Ha; reflexivity|]. symmetry. apply upto_inert. apply inert_cons; [reflexivity|].
  apply inert_acts, Ha.
Qed.

(** The declarations of the first module. *)
Lemma defs_declared ast g t n : declared (tx "type") n 0 (body_of ast g t) =
  let from d b := [rest_of d ++ b] in
  let b8 := [TNl] in let b7 := kinds_decl g ++ b8 in let b6 := goto_decl (t_goto t) ++ b7 in let b5 := action_decl (t_action t) ++ b6 in
  let b4 := productions_decl g ++ b5 in let b3 := production_decl ++ b4 in let b2 := tokens_decl g ++ b3 in let b1 := token_decl ++ b2 in
  (if eqb (tx "Symbol") n then from (symbol_decl ast) (TNl :: b1) else []) ++ (if eqb (tx "Token") n then from token_decl b2 else []) ++
  (if eqb (tx "Tokens") n then from (tokens_decl g) b3 else []) ++ (if eqb (tx "Production") n then from production_decl b4 else []) ++
  (if eqb (tx "Productions") n then from (productions_decl g) b5 else []) ++ (if eqb (tx "Action") n then from (action_decl (t_action t)) b6 else []) ++
  (if eqb (tx "Goto") n then from (goto_decl (t_goto t)) b7 else []) ++ (if eqb (tx "TokenKindToIdx") n then from (kinds_decl g) b8 else []).
Proof.
  cbv zeta. unfold body_of. rewrite declared_skip by reflexivity. unfold defs_body.
  unfold symbol_decl at 1. rewrite declared_exp; [|apply (calm_symbol ast)|discriminate]. f_equal. cbn [app]. rewrite declared_skip by reflexivity.
  unfold token_decl at 1. rewrite declared_exp; [|apply calm_token|discriminate]. f_equal.
  unfold tokens_decl at 1. rewrite declared_exp; [|apply (calm_tokens g)|discriminate]. f_equal.
  unfold production_decl at 1. rewrite declared_exp; [|apply calm_production|discriminate]. f_equal.
  unfold productions_decl at 1. rewrite declared_exp; [|apply (calm_productions g)|discriminate]. f_equal.
  unfold action_decl at 1. rewrite declared_exp; [|apply (calm_action (t_action t))|discriminate]. f_equal.
  unfold goto_decl at 1. rewrite declared_exp; [|apply (calm_goto (t_goto t))|discriminate]. f_equal.
  unfold kinds_decl at 1. rewrite declared_exp; [|apply (calm_kinds g)|discriminate]. cbn [declared andb Nat.eqb is_word app]. rewrite app_nil_r. reflexivity.
Qed.

Lemma declares_at body n d b v r' : declared (tx "type") n 0 body = [TPun 61 :: skipn 1 (rest_of d) ++ b] ->
  Val (skipn 1 (rest_of d) ++ b) v r' -> ends r' -> Declares body n v.
Proof. intros H1 H2 H3. exists (skipn 1 (rest_of d) ++ b), r'. auto. Qed.

Lemma NoDup_map_inj {A B} (f : A -> B) l : (forall x y, f x = f y -> x = y) -> NoDup l -> NoDup (map f l).
Proof. intros H. apply FinFun.Injective_map_NoDup. intros x y. apply H. Qed.
Lemma enum_nodup {A} (l : list A) : NoDup (map (fun x => N.of_nat (fst x)) (enum l)).
Proof. rewrite <- (map_map fst N.of_nat), enum_fst. apply NoDup_map_inj; [intros; lia|apply seq_NoDup]. Qed.
Lemma rows_nodup {A} `{Ord A} {V} (m : list (A * V)) : msorted m -> NoDup (map fst m).
Proof. intros Hm. apply (@ssorted_NoDup A _). exact Hm. Qed.
Lemma enum_In {A} (l : list A) i x : In (i, x) (enum l) <-> nth_error l i = Some x.
Proof.
  unfold enum. assert (G : forall k, In (i, x) (combine (seq k (length l)) l) <-> k <= i /\ nth_error l (i - k) = Some x).
  { induction l as [|y l IH]; intros k; cbn [length seq combine In].
    - split; [intros []|]. intros [_ H]. destruct (i - k); discriminate.
    - rewrite IH. split.
      + intros [E|[H1 H2]].
        * injection E as <- <-. rewrite Nat.sub_diag. split; [lia|reflexivity].
        * split; [lia|]. replace (i - k) with (S (i - S k)) by lia. exact H2.
      + intros [H1 H2]. destruct (Nat.eq_dec i k) as [->|Hn].
        * left. rewrite Nat.sub_diag in H2. injection H2 as <-. reflexivity.
        * right. split; [lia|]. replace (i - k) with (S (i - S k)) in H2 by lia. exact H2. }
  rewrite G, Nat.sub_0_r. split; [tauto|]. intros H. split; [lia|exact H].
Qed.

Lemma kind_name_kind x n : sym_readable x -> kind_name x = Some n <-> token_kind x n.
Proof.
  destruct x as [s|s|s| |]; cbn [kind_name token_kind sym_readable]; try (split; [discriminate|intros []]).
  - intros [_ H]. apply unq0_ok in H. rewrite H. split; congruence.
  - intros [_ H]. apply unq0_ok in H. rewrite H. split; congruence.
  - intros _. split; congruence.
Qed.
Lemma kind_entry_In g n k : (forall x, In x (g_tokens g) -> sym_readable x) ->
  In (n, k) (flat_map kind_entry (enum (g_tokens g))) <-> exists i x, get_token g i = Some x /\ token_kind x n /\ k = N.of_nat i.
Proof.
  intros Hr. rewrite in_flat_map. split.
  - intros ([i x] & Hi & H). unfold kind_entry in H. cbn [fst snd] in H. destruct (kind_name x) as [m|] eqn:E; [|destruct H].
    destruct H as [H|[]]. injection H as -> <-. apply enum_In in Hi. exists i, x. split; [exact Hi|]. split; auto. apply kind_name_kind; auto.
    apply Hr. eapply nth_error_In; eauto.
  - intros (i & x & Hi & Hk & ->). exists (i, x). split; [apply enum_In; exact Hi|]. unfold kind_entry. cbn [fst snd].
    apply kind_name_kind in Hk; [|apply Hr; eapply nth_error_In; eauto]. rewrite Hk. left. reflexivity.
Qed.
Lemma kinds_nodup g : (forall x, In x (g_tokens g) -> sym_readable x) -> kinds_distinct g -> NoDup (map fst (flat_map kind_entry (enum (g_tokens g)))).
Proof.
  intros Hr Hd. assert (G : forall l, NoDup (map fst l) -> (forall e, In e l -> In e (enum (g_tokens g))) -> NoDup (map fst (flat_map kind_entry l))).
  { induction l as [|[i x] l IH]; intros Hn Hl; [constructor|]. cbn [map flat_map] in *. inversion Hn as [|a b Hni Hnd]; subst.
    assert (IH' : NoDup (map fst (flat_map kind_entry l))) by (apply IH; auto; intros e He; apply Hl; right; auto).
    unfold kind_entry at 1. cbn [fst snd] in *. destruct (kind_name x) as [m|] eqn:E; [|exact IH']. cbn [app map fst]. constructor; [|exact IH'].
    intros C. apply in_map_iff in C as ([m' k] & E' & C). cbn [fst] in E'. subst m'. apply in_flat_map in C as ([j y] & Hj & C).
    unfold kind_entry in C. cbn [fst snd] in C. destruct (kind_name y) as [m'|] eqn:Ey; [|destruct C]. destruct C as [C|[]]. injection C as -> _.
    assert (Hx : get_token g i = Some x) by (apply enum_In, Hl; left; auto). assert (Hy : get_token g j = Some y) by (apply enum_In, Hl; right; auto).
    assert (i = j).
    { apply (Hd i j x y m); auto; apply kind_name_kind; auto; apply Hr; eapply nth_error_In; eauto. }
    subst j. apply Hni. apply (in_map fst) in Hj. exact Hj. }
  apply G; auto. rewrite enum_fst. apply seq_NoDup.
Qed.

Ltac pick := rewrite defs_declared; cbv zeta beta;
  repeat match goal with |- context [eqb (tx ?a) (tx ?b)] => let v := eval vm_compute in (eqb (tx a) (tx b)) in change (eqb (tx a) (tx b)) with v end;
  cbv iota; cbn [app].
Lemma read_parse ast g hash t L text : file_ast ast -> grammar_from_ast ast = Ok g -> make_tables hash g = Ok t ->
  quotes_ok g -> codes_ok ast -> kinds_distinct g -> parse_generate ast (Lalr g L t) = Ok text -> ReadParse text (the_tables g t).
Proof.
  intros Hf Hg Ht Hq Hc Hk E. pose proof (file_readable _ _ _ _ Hf Hg Ht Hq) as Hr. pose proof (file_acts _ _ Hf Hg Hq Hc) as Ha.
  destruct (make_tables_ok _ _ _ Ht) as [[A1 A2] [G1 G2]].
  exists (body_of ast g t). split.
  { unfold readable_tokens. rewrite (generate_toks _ _ _ _ _ Hr Hf Ha E). cbn [fst]. apply module_defs, Ha. }
  split; [|split; [|split; [|split; [|split; [|split; [|split; [|split; [|split; [|split; [|split]]]]]]]]]].
  - eapply declares_at with (d := tokens_decl g); [pick; reflexivity|apply val_tokens|reflexivity].
  - cbn [the_tables pt_tokens]. rewrite map_map. apply enum_nodup.
  - eapply declares_at with (d := productions_decl g); [pick; reflexivity|apply val_prods|reflexivity].
  - cbn [the_tables pt_prods]. rewrite map_map. apply enum_nodup.
  - eapply declares_at with (d := action_decl (t_action t)); [pick; reflexivity|apply val_action|reflexivity].
  - cbn [the_tables pt_action]. rewrite map_map. cbn [fst]. rewrite <- (map_map fst N.of_nat). apply NoDup_map_inj; [intros; lia|]. apply rows_nodup, A1.
  - intros s row Hin. cbn [the_tables pt_action] in Hin. apply in_map_iff in Hin as ([i r] & Er & Hin). injection Er as <- <-. cbn [snd].
    rewrite map_map. cbn [fst]. rewrite <- (map_map fst N.of_nat). apply NoDup_map_inj; [intros; lia|]. apply rows_nodup. eapply A2; eauto.
  - eapply declares_at with (d := goto_decl (t_goto t)); [pick; reflexivity|apply val_goto|reflexivity].
  - cbn [the_tables pt_goto]. rewrite map_map. cbn [fst]. rewrite <- (map_map fst N.of_nat). apply NoDup_map_inj; [intros; lia|]. apply rows_nodup, G1.
  - intros s row Hin. cbn [the_tables pt_goto] in Hin. apply in_map_iff in Hin as ([i r] & Er & Hin). injection Er as <- <-. cbn [snd].
    rewrite map_map. cbn [fst]. apply rows_nodup. eapply G2; eauto.
  - eapply declares_at with (d := kinds_decl g); [pick; reflexivity|apply val_kinds|reflexivity].
  - cbn [the_tables pt_kinds]. apply kinds_nodup; auto. apply Hr.
Qed.

(** ** The tables are the only ones *)

Lemma Declares_det body n v v' : Declares body n v -> Declares body n v' -> v = v'.
Proof.
  intros (r & r1 & E1 & V1 & _) (r' & r2 & E2 & V2 & _). rewrite E1 in E2. injection E2 as <-.
  destruct (proj1 reader_det _ _ _ V1 _ _ V2) as [-> _]. reflexivity.
Qed.
Lemma Module_det ts n b b' : Module ts n b -> Module ts n b' -> b = b'.
Proof. intros (r & E1 & ->) (r' & E2 & ->). rewrite E1 in E2. injection E2 as <-. reflexivity. Qed.
Lemma num_obj_inj {A} (f : A -> value) l l' : (forall x y, f x = f y -> x = y) -> num_obj f l = num_obj f l' -> l = l'.
Proof.
  intros Hf E. unfold num_obj in E. injection E as E. revert l' E. induction l as [|[k x] l IH]; intros [|[k' y] l'] E; try discriminate; auto.
  cbn [map fst snd] in E. injection E as -> E1 E2. apply Hf in E1. subst. f_equal. auto.
Qed.
Lemma name_obj_inj {A} (f : A -> value) l l' : (forall x y, f x = f y -> x = y) -> name_obj f l = name_obj f l' -> l = l'.
Proof.
  intros Hf E. unfold name_obj in E. injection E as E. revert l' E. induction l as [|[k x] l IH]; intros [|[k' y] l'] E; try discriminate; auto.
  cbn [map fst snd] in E. injection E as -> E1 E2. apply Hf in E1. subst. f_equal. auto.
Qed.
Lemma vpt_inj x y : vpt x = vpt y -> x = y.
Proof. destruct x as [k [v|]], y as [k' [v'|]]; unfold vpt; cbn [fst snd]; intros E; injection E; intros; congruence. Qed.
Lemma vprod_inj x y : vprod x = vprod y -> x = y.
Proof.
  destruct x as [n l], y as [n' l']. unfold vprod. cbn [fst snd]. intros E. injection E as -> E. f_equal.
  revert l' E. induction l as [|a l IH]; intros [|b l'] E; try discriminate; auto. cbn [map] in E. injection E as -> E. f_equal. auto.
Qed.
Lemma vaction_inj x y : vaction x = vaction y -> x = y.
Proof. destruct x, y; unfold vaction; intros E; try discriminate E; try (injection E as ->); reflexivity. Qed.
Lemma ReadParse_det text P P' : ReadParse text P -> ReadParse text P' -> P = P'.
Proof.
  intros (b & M & D1 & _ & D2 & _ & D3 & _ & _ & D4 & _ & _ & D5 & _) (b' & M' & E1 & _ & E2 & _ & E3 & _ & _ & E4 & _ & _ & E5 & _).
  rewrite (Module_det _ _ _ _ M' M) in *. destruct P as [p1 p2 p3 p4 p5], P' as [q1 q2 q3 q4 q5]. cbn [pt_tokens pt_prods pt_action pt_goto pt_kinds] in *.
  apply (Declares_det _ _ _ _ D1), num_obj_inj in E1; [|exact vpt_inj]. apply (Declares_det _ _ _ _ D2), num_obj_inj in E2; [|exact vprod_inj].
  apply (Declares_det _ _ _ _ D3), num_obj_inj in E3; [|intros x y; apply num_obj_inj, vaction_inj].
  assert (VI : forall x y, VNum x = VNum y -> x = y) by congruence.
  apply (Declares_det _ _ _ _ D4), num_obj_inj in E4; [|intros x y; apply name_obj_inj, VI].
  apply (Declares_det _ _ _ _ D5), name_obj_inj in E5; [|exact VI]. subst. reflexivity.
Qed.

(** ** What the tables contain *)

Lemma describes_entry x e : sym_readable x -> x <> SEps -> describes x e <-> e = token_entry x.
Proof.
  destruct x as [s|s|s| |]; cbn [describes token_entry sym_readable]; intros H Hn; try tauto; try congruence.
  - destruct H as [H _]. apply unq0_ok in H. rewrite H. split; [intros (v & E & ->); congruence|intros ->; eauto].
  - destruct H as [H _]. apply unq0_ok in H. rewrite H. split; [intros (v & E & ->); congruence|intros ->; eauto].
Qed.
Lemma same_action_of a b : same_action a b <-> b = taction_of a.
Proof. destruct a, b; cbn; split; intros H; try congruence; try discriminate H; try destruct H; auto. Qed.
Lemma the_tables_spec ast g hash t : file_ast ast -> grammar_from_ast ast = Ok g -> make_tables hash g = Ok t -> quotes_ok g ->
  tables_of_grammar g t (the_tables g t).
Proof.
  intros Hf Hg Ht Hq. pose proof (file_readable _ _ _ _ Hf Hg Ht Hq) as [_ Hr _ _]. destruct (make_tables_ok _ _ _ Ht) as [HA HG].
  destruct (grammar_from_ast_ok _ _ Hg) as (st & _ & W & _). destruct (file_plain _ _ Hf Hg) as [[Hp1 Hp2] _].
  constructor; cbn [the_tables pt_tokens pt_prods pt_action pt_goto pt_kinds].
  - intros k e. rewrite in_map_iff. assert (D : forall i x, get_token g i = Some x -> describes x e <-> e = token_entry x).
    { intros i x Hi. apply nth_error_In in Hi. apply describes_entry; [auto|]. intros ->. exact (file_symbols _ _ Hf Hg _ Hi). }
    split.
    + intros ([i x] & E & Hin). apply enum_In in Hin. injection E as <- <-. exists i, x. split; auto. split; auto. apply (D i); auto.
    + intros (i & x & -> & Hi & Hd). exists (i, x). rewrite (D i x Hi) in Hd. subst e. split; auto. apply enum_In. exact Hi.
  - intros k n l. rewrite in_map_iff.
    assert (D : forall p, In p (g_prods g) -> Forall2 (fun x j => get_token g (N.to_nat j) = Some x) (p_syms p) l <-> l = map (fun y => N.of_nat (index0 g y)) (p_syms p)).
    { intros p Hp. pose proof (fun x => token_of_body g _ W p x Hp) as HT. clear Hp. revert l. induction (p_syms p) as [|y ys IH]; intros l.
      - cbn. split; [intros H; inversion H; auto|intros ->; constructor].
      - assert (Hy : get_token g (index0 g y) = Some y).
        { destruct (proj1 (get_token_idx_In g y)) as (j & Ej); [apply HT; left; auto|]. unfold index0. rewrite Ej. apply get_token_of_idx. exact Ej. }
        cbn [map]. split.
        + intros H. inversion H as [|a j b l' Hj Hl]; subst. f_equal; [|apply IH; auto; intros x Hx; apply HT; right; auto].
          apply (token_idx_bij g _ W) in Hj; auto. unfold index0. rewrite Hj. lia.
        + intros ->. constructor; [rewrite Nat2N.id; exact Hy|]. apply IH; auto. intros x Hx; apply HT; right; auto. }
    split.
    + intros ([i p] & E & Hin). cbn [fst snd] in E. apply pair_equal_spec in E as [<- E]. apply pair_equal_spec in E as [<- <-].
      apply enum_In in Hin. exists i, p. split; auto. split; auto. split; auto. apply D; auto. eapply nth_error_In; eauto.
    + intros (i & p & -> & Hi & -> & Hl). exists (i, p). cbn [fst snd]. split; [|apply enum_In; exact Hi]. apply D in Hl; [|eapply nth_error_In; eauto]. subst l. auto.
  - intros s k b. split.
    + intros (row & Hr1 & Hr2). apply in_map_iff in Hr1 as ([i r] & E & Hin). cbn [fst snd] in E. apply pair_equal_spec in E as [<- <-].
      apply in_map_iff in Hr2 as ([j a] & E & Hin'). cbn [fst snd] in E. apply pair_equal_spec in E as [<- <-].
      exists i, j, a. split; auto. split; auto. split; [apply tbl_get_In; eauto|apply same_action_of; auto].
    + intros (i & j & a & -> & -> & Hg' & Ha). apply tbl_get_In in Hg' as (row & H1 & H2); auto. apply same_action_of in Ha. subst b.
      eexists. split; [apply in_map_iff; exists (i, row); split; [reflexivity|auto]|]. cbn [snd]. apply in_map_iff. exists (j, a). auto.
  - intros s n k. split.
    + intros (row & Hr1 & Hr2). apply in_map_iff in Hr1 as ([i r] & E & Hin). cbn [fst snd] in E. apply pair_equal_spec in E as [<- <-].
      apply in_map_iff in Hr2 as ([j a] & E & Hin'). cbn [fst snd] in E. apply pair_equal_spec in E as [<- <-].
      exists i, a. split; auto. split; auto. apply tbl_get_In; eauto.
    + intros (i & j & -> & -> & Hg'). apply tbl_get_In in Hg' as (row & H1 & H2); auto.
      eexists. split; [apply in_map_iff; exists (i, row); split; [reflexivity|auto]|]. cbn [snd]. apply in_map_iff. exists (n, j). auto.
  - intros n k. rewrite kind_entry_In by exact Hr. split.
    + intros (i & x & H1 & H2 & H3). exists i, x. auto.
    + intros (i & x & H1 & H2 & H3). exists i, x. auto.
Qed.

(** The kinds are declared whether or not they differ. *)
Lemma kinds_declared ast g hash t L text : file_ast ast -> grammar_from_ast ast = Ok g -> make_tables hash g = Ok t ->
  quotes_ok g -> codes_ok ast -> parse_generate ast (Lalr g L t) = Ok text ->
  exists body, Module (readable_tokens text) (tx "type_defs") body /\ Declares body (tx "TokenKindToIdx") (name_obj VNum (flat_map kind_entry (enum (g_tokens g)))).
Proof.
  intros Hf Hg Ht Hq Hc E. pose proof (file_readable _ _ _ _ Hf Hg Ht Hq) as Hr. pose proof (file_acts _ _ Hf Hg Hq Hc) as Ha.
  exists (body_of ast g t). split.
  - unfold readable_tokens. rewrite (generate_toks _ _ _ _ _ Hr Hf Ha E). cbn [fst]. apply module_defs, Ha.
  - eapply declares_at with (d := kinds_decl g); [pick; reflexivity|apply val_kinds|reflexivity].
Qed.
Lemma nodup_kinds g : (forall x, In x (g_tokens g) -> sym_readable x) -> NoDup (map fst (flat_map kind_entry (enum (g_tokens g)))) -> kinds_distinct g.
Proof.
  intros Hr Hn i j x y n Hi Hj Hx Hy.
  assert (G : forall i x, get_token g i = Some x -> token_kind x n -> In (n, N.of_nat i) (flat_map kind_entry (enum (g_tokens g)))).
  { intros k z Hk Hz. apply kind_entry_In; auto. exists k, z. auto. }
  pose proof (G i x Hi Hx) as H1. pose proof (G j y Hj Hy) as H2. clear -Hn H1 H2.
  assert (N.of_nat i = N.of_nat j); [|lia]. induction (flat_map kind_entry (enum (g_tokens g))) as [|[m k] l IH]; [destruct H1|].
  cbn [map] in Hn. inversion Hn as [|a b N1 N2]; subst. cbn [fst] in N1. destruct H1 as [H1|H1], H2 as [H2|H2]; auto.
  - congruence.
  - injection H1 as -> ->. destruct N1. apply (in_map fst) in H2. exact H2.
  - injection H2 as -> ->. destruct N1. apply (in_map fst) in H1. exact H1.
Qed.
