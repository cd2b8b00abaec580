(** The lexer and parser of grammar files against their specification. *)
From Coq Require Import Ascii String.
From Verif Require Import Base Regex Nfa Dfa Lex Grammar Support PropsSupport Text Lalr GrammarFile GrammarFileSpec.
Local Open Scope list_scope.

(** ** The lexer *)

Lemma space_ok c : space_b c = true <-> space c.
Proof.
  unfold space_b, spaces, space. cbn [existsb fst snd]. rewrite !orb_true_iff, !andb_true_iff, !N.leb_le. split.
  - intros H. repeat destruct H as [H|H]; try lia.
  - intros H. repeat destruct H as [H|H]; lia.
Qed.
Lemma word_start_ok c : word_start c = true <-> ident_start c.
Proof. unfold word_start, ident_start. rewrite !orb_true_iff, !andb_true_iff, N.eqb_eq, !N.leb_le. tauto. Qed.
Lemma word_rest_ok c : word_rest c = true <-> ident_rest c.
Proof. unfold word_rest, ident_rest. rewrite orb_true_iff, andb_true_iff, !N.leb_le, word_start_ok. tauto. Qed.

Lemma span_le p s : span p s <= length s.
Proof. induction s as [|c s IH]; cbn; [lia|]. destruct (p c); cbn; lia. Qed.
Lemma span_firstn p s : Forall (fun c => p c = true) (firstn (span p s) s).
Proof. induction s as [|c s IH]; cbn; [constructor|]. destruct (p c) eqn:E; cbn; constructor; auto. Qed.
Lemma span_max p u v : Forall (fun c => p c = true) u -> length u <= span p (u ++ v).
Proof. induction 1 as [|c u Hc _ IH]; cbn; [lia|]. rewrite Hc. lia. Qed.

Lemma str_end_some s : forall n, str_end s = Some n -> exists c v, s = c ++ 34%N :: v /\ quotable c /\ n = S (length c).
Proof.
  assert (G : forall k s, length s <= k -> forall n, str_end s = Some n -> exists c v, s = c ++ 34%N :: v /\ quotable c /\ n = S (length c)).
  { induction k as [|k IH]; intros [|c t] Hk n E; cbn in Hk; try lia; try discriminate. cbn [str_end] in E.
    destruct (c =? 34)%N eqn:E1.
    { apply N.eqb_eq in E1 as ->. injection E as <-. exists [], t. repeat split; constructor. }
    destruct (c =? 92)%N eqn:E2.
    - apply N.eqb_eq in E2 as ->. destruct t as [|d t]; [discriminate|].
      destruct ((d =? 92) || (d =? 34))%N eqn:E3; [|discriminate].
      destruct (str_end t) as [m|] eqn:E4; [|discriminate]. injection E as <-.
      destruct (IH t ltac:(cbn in Hk; lia) m E4) as (b & v & -> & Hb & ->).
      exists (92%N :: d :: b), v. split; [reflexivity|]. split; [|reflexivity].
      apply orb_true_iff in E3 as [E3|E3]; apply N.eqb_eq in E3 as ->; constructor; auto.
    - destruct (str_end t) as [m|] eqn:E4; [|discriminate]. injection E as <-.
      destruct (IH t ltac:(lia) m E4) as (b & v & -> & Hb & ->).
      exists (c :: b), v. split; [reflexivity|]. split; [|reflexivity]. apply N.eqb_neq in E1, E2. constructor; auto. }
  intros n. apply (G (length s)). lia.
Qed.
Lemma str_end_quotable c v : quotable c -> str_end (c ++ 34%N :: v) = Some (S (length c)).
Proof.
  induction 1 as [|s H IH|s H IH|d s H1 H2 H IH]; cbn [app str_end length].
  - reflexivity.
  - change (92 =? 34)%N with false. change (92 =? 92)%N with true. cbv iota. cbn [orb]. rewrite IH. reflexivity.
  - change (92 =? 34)%N with false. change (92 =? 92)%N with true. cbv iota. cbn [orb]. rewrite IH. reflexivity.
  - destruct (N.eqb_spec d 34); [congruence|]. destruct (N.eqb_spec d 92); [congruence|]. rewrite IH. reflexivity.
Qed.

Lemma code_end_some s : forall n, code_end s = Some n -> exists c v, s = c ++ 41%N :: v /\ ~ In 10%N c /\ n = S (length c).
Proof.
  induction s as [|c s IH]; intros n E; [discriminate|]. cbn [code_end] in E.
  destruct (N.eqb_spec c 10) as [_|Hc]; [discriminate|]. destruct (code_end s) as [m|].
  - injection E as <-. destruct (IH m eq_refl) as (b & v & -> & Hb & ->). exists (c :: b), v. split; [reflexivity|]. split; [|reflexivity].
    intros [H|H]; auto.
  - destruct (N.eqb_spec c 41) as [->|_]; [|discriminate]. injection E as <-. exists [], s. repeat split; auto.
Qed.
Lemma code_end_max c v : ~ In 10%N c -> exists n, code_end (c ++ 41%N :: v) = Some n /\ S (length c) <= n.
Proof.
  induction c as [|d c IH]; intros Hc; cbn [app code_end length].
  - change (41 =? 10)%N with false. change (41 =? 41)%N with true. cbv iota. destruct (code_end v) as [n|]; eexists; split; try reflexivity; lia.
  - destruct (N.eqb_spec d 10) as [->|_]; [exfalso; apply Hc; left; auto|]. destruct IH as (n & -> & Hn); [intros H; apply Hc; right; auto|].
    eexists. split; [reflexivity|lia].
Qed.
(** The closing parenthesis taken is the last one of the line. *)
Lemma code_end_last c v w : ~ In 10%N c -> ~ In 41%N v -> (w = [] \/ exists w', w = 10%N :: w') -> code_end (c ++ 41%N :: v ++ w) = Some (S (length c)).
Proof.
  intros Hc Hv Hw. induction c as [|d c IH]; cbn [app code_end length].
  - change (41 =? 10)%N with false. change (41 =? 41)%N with true. cbv iota.
    assert (E : code_end (v ++ w) = None); [|rewrite E; reflexivity].
    induction v as [|d v IH]; cbn [app].
    + destruct Hw as [->|(w' & ->)]; reflexivity.
    + cbn [code_end]. destruct (N.eqb_spec d 10); [reflexivity|]. rewrite IH; [|intros H; apply Hv; right; auto].
      destruct (N.eqb_spec d 41) as [->|_]; [exfalso; apply Hv; left; auto|reflexivity].
  - destruct (N.eqb_spec d 10) as [->|_]; [exfalso; apply Hc; left; auto|]. rewrite IH; [reflexivity|]. intros H; apply Hc; right; auto.
Qed.

Lemma m_lit_some l : forall s n, m_lit l s = Some n -> exists v, s = l ++ v /\ n = length l.
Proof.
  induction l as [|c l IH]; intros s n E; [injection E as <-; exists s; auto|]. destruct s as [|d s]; cbn [m_lit] in E; [discriminate|].
  destruct (N.eqb_spec c d) as [->|_]; [|discriminate]. destruct (m_lit l s) as [m|] eqn:Em; [|discriminate]. injection E as <-.
  destruct (IH s m Em) as (v & -> & ->). exists v. auto.
Qed.
Lemma m_lit_app l v : m_lit l (l ++ v) = Some (length l).
Proof. induction l as [|c l IH]; cbn [app m_lit length]; auto. rewrite N.eqb_refl, IH. reflexivity. Qed.

(** The matcher of each kind takes the longest text of that kind. *)
Definition matches_kind (k : kind) (m : str -> option nat) : Prop :=
  (forall s n, m s = Some n -> exists u v, s = u ++ v /\ length u = n /\ written k u) /\
  (forall u v, written k u -> exists n, m (u ++ v) = Some n /\ length u <= n).
Lemma matches_space : matches_kind KSpace m_space.
Proof.
  split.
  - intros s n E. injection E as <-. exists (firstn (span space_b s) s), (skipn (span space_b s) s). split; [symmetry; apply firstn_skipn|].
    split; [apply firstn_length_le, span_le|]. eapply Forall_impl; [|apply span_firstn]. intros c. apply space_ok.
  - intros u v Hu. eexists. split; [reflexivity|]. apply span_max. eapply Forall_impl; [|exact Hu]. intros c. apply space_ok.
Qed.
Lemma matches_ident : matches_kind KId m_ident.
Proof.
  split.
  - intros [|c s] n E; [discriminate|]. cbn [m_ident] in E. destruct (word_start c) eqn:Ec; [|discriminate]. injection E as <-.
    exists (c :: firstn (span word_rest s) s), (skipn (span word_rest s) s). split; [cbn; rewrite firstn_skipn; reflexivity|].
    split; [cbn; rewrite firstn_length_le; auto using span_le|]. split; [apply word_start_ok; auto|].
    eapply Forall_impl; [|apply span_firstn]. intros d. apply word_rest_ok.
  - intros [|c u] v; [intros []|]. intros [Hc Hu]. cbn [app m_ident]. apply word_start_ok in Hc. rewrite Hc. eexists. split; [reflexivity|].
    cbn [length]. apply le_n_S, span_max. eapply Forall_impl; [|exact Hu]. intros d. apply word_rest_ok.
Qed.
Lemma matches_str : matches_kind KStr m_str.
Proof.
  split.
  - intros [|c s] n E; [discriminate|]. cbn [m_str] in E. destruct (N.eqb_spec c 34) as [->|_]; [|discriminate].
    destruct (str_end s) as [m|] eqn:Em; [|discriminate]. injection E as <-. destruct (str_end_some s m Em) as (b & v & -> & Hb & ->).
    exists (34%N :: b ++ [34%N]), v. split; [cbn; rewrite <- app_assoc; reflexivity|]. split; [cbn; rewrite app_length; cbn; lia|]. exists b. auto.
  - intros u v (c & -> & Hc). exists (S (S (length c))). cbn [app m_str length]. change (34 =? 34)%N with true. cbv iota.
    rewrite <- app_assoc. cbn [app]. rewrite str_end_quotable by auto. split; [reflexivity|]. rewrite app_length. cbn. lia.
Qed.
Lemma matches_code : matches_kind KCode m_code.
Proof.
  split.
  - intros [|c s] n E; [discriminate|]. cbn [m_code] in E. destruct (N.eqb_spec c 40) as [->|_]; [|discriminate].
    destruct (code_end s) as [m|] eqn:Em; [|discriminate]. injection E as <-. destruct (code_end_some s m Em) as (b & v & -> & Hb & ->).
    exists (40%N :: b ++ [41%N]), v. split; [cbn; rewrite <- app_assoc; reflexivity|]. split; [cbn; rewrite app_length; cbn; lia|]. exists b. auto.
  - intros u v (c & -> & Hc). cbn [app m_code]. change (40 =? 40)%N with true. cbv iota. rewrite <- app_assoc. cbn [app].
    destruct (code_end_max c v Hc) as (n & -> & Hn). eexists. split; [reflexivity|]. cbn. rewrite app_length. cbn. lia.
Qed.
Lemma matches_lit l t : In (l, t) literals -> matches_kind (KLit t) (m_lit l).
Proof.
  intros Hl. split.
  - intros s n E. destruct (m_lit_some l s n E) as (v & -> & ->). exists l, v. auto.
  - intros u v Hu. assert (u = l) as ->; [|rewrite m_lit_app; eauto].
    unfold literals in Hl. cbn in Hl, Hu.
    repeat (destruct Hl as [E|Hl]; [injection E as <- <-; repeat (destruct Hu as [Hu|Hu]; [first [discriminate Hu|injection Hu; intros; subst; reflexivity]|]); destruct Hu|]). destruct Hl.
Qed.

(** The table of the lexer, with the kind of each entry. *)
Definition entry := (kind * (option (str -> gtok) * (str -> option nat)))%type.
Definition front : list entry := [(KSpace, (None, m_space)); (KStr, (Some GStr, m_str)); (KId, (Some GId, m_ident)); (KCode, (Some GCode, m_code))].
Definition back : list entry := map (fun l => (KLit (snd l), (Some (fun _ => snd l), m_lit (fst l)))) literals.
Lemma patterns_entries : patterns = map snd (front ++ back).
Proof. reflexivity. Qed.
Lemma entry_ok k mk m : In (k, (mk, m)) (front ++ back) ->
  matches_kind k m /\ match mk with None => k = KSpace | Some f => k <> KSpace /\ forall u, token_of k u = [f u] end.
Proof.
  intros H. apply in_app_or in H as [H|H].
  - cbn in H. destruct H as [H|[H|[H|[H|[]]]]]; injection H as <- <- <-; split; auto using matches_space, matches_str, matches_ident, matches_code; split; (discriminate || reflexivity).
  - unfold back in H. apply in_map_iff in H as ([l t] & E & Hl). injection E as <- <- <-. split; [apply matches_lit; auto|]. split; [discriminate|reflexivity].
Qed.
Lemma entry_of k u : written k u -> exists mk m, In (k, (mk, m)) (front ++ back).
Proof.
  destruct k as [| | | |t]; intros H; try (do 2 eexists; apply in_or_app; left; cbn; tauto).
  do 2 eexists. apply in_or_app. right. unfold back. apply in_map_iff. exists (u, t). split; [reflexivity|exact H].
Qed.

Definition chosen (s : str) (l : list entry) (acc : option (nat * option (str -> gtok))) : Prop :=
  match acc with
  | None => forall k mk m, In (k, (mk, m)) l -> m s = None
  | Some (n, mk) => exists k m, In (k, (mk, m)) l /\ m s = Some n /\
      forall k' mk' m' n', In (k', (mk', m')) l -> m' s = Some n' -> n' < n \/ (n' = n /\ (literal k' -> literal k))
  end.
Lemma better_chosen s l acc k mk m : chosen s l acc -> (literal k \/ forall k' x, In (k', x) l -> ~ literal k') ->
  chosen s (l ++ [(k, (mk, m))]) (better s acc (mk, m)).
Proof.
  intros H Hk. unfold better. cbn [fst snd]. destruct (m s) as [n|] eqn:En.
  - assert (Hnew : forall n0 mk0, chosen s l (Some (n0, mk0)) -> n0 <= n -> chosen s (l ++ [(k, (mk, m))]) (Some (n, mk))).
    { intros n0 mk0 (k0 & m0 & _ & _ & Hmax) Hle. exists k, m. split; [apply in_or_app; right; left; auto|]. split; auto.
      intros k' mk' m' n' Hi E'. apply in_app_or in Hi as [Hi|[Hi|[]]].
      - destruct (Hmax k' mk' m' n' Hi E') as [Hlt|[-> _]]; [left; lia|]. destruct (Nat.eq_dec n0 n) as [->|]; [|left; lia]. right. split; auto.
        intros Hl. destruct Hk as [Hk|Hk]; auto. exfalso. apply (Hk k' _ Hi Hl).
      - injection Hi as <- <- <-. rewrite En in E'. injection E' as <-. right. auto. }
    destruct acc as [[n0 mk0]|]; [destruct (Nat.leb_spec n0 n) as [Hle|Hgt]; [eapply Hnew; eauto|]|].
    + destruct H as (k0 & m0 & H1 & H2 & H3). exists k0, m0. split; [apply in_or_app; auto|]. split; auto.
      intros k' mk' m' n' Hi E'. apply in_app_or in Hi as [Hi|[Hi|[]]]; [eauto|]. injection Hi as <- <- <-. left. congruence || (rewrite En in E'; injection E' as <-; lia).
    + exists k, m. split; [apply in_or_app; right; left; auto|]. split; auto. intros k' mk' m' n' Hi E'. apply in_app_or in Hi as [Hi|[Hi|[]]].
      * rewrite (H k' mk' m' Hi) in E'. discriminate.
      * injection Hi as <- <- <-. right. split; auto. congruence.
  - destruct acc as [[n0 mk0]|].
    + destruct H as (k0 & m0 & H1 & H2 & H3). exists k0, m0. split; [apply in_or_app; auto|]. split; auto.
      intros k' mk' m' n' Hi E'. apply in_app_or in Hi as [Hi|[Hi|[]]]; [eauto|]. injection Hi as <- <- <-. congruence.
    + intros k' mk' m' Hi. apply in_app_or in Hi as [Hi|[Hi|[]]]; [eauto|]. injection Hi as <- <- <-. auto.
Qed.
Lemma fold_chosen s l2 : forall l1 acc, chosen s l1 acc ->
  (forall a k x b, l2 = a ++ (k, x) :: b -> literal k \/ forall k' y, In (k', y) (l1 ++ a) -> ~ literal k') ->
  chosen s (l1 ++ l2) (fold_left (better s) (map snd l2) acc).
Proof.
  induction l2 as [|[k [mk m]] l2 IH]; intros l1 acc H Hk; [rewrite app_nil_r; auto|]. cbn [map snd fold_left].
  replace (l1 ++ (k, (mk, m)) :: l2) with ((l1 ++ [(k, (mk, m))]) ++ l2) by (rewrite <- app_assoc; reflexivity). apply IH.
  - apply better_chosen; auto. destruct (Hk [] k (mk, m) l2 eq_refl) as [?|Hx]; auto. right. intros k' y Hi. apply (Hx k' y). rewrite app_nil_r. auto.
  - intros a k' x b ->. destruct (Hk ((k, (mk, m)) :: a) k' x b eq_refl) as [?|Hx]; auto. right. intros k'' y Hi. apply (Hx k'' y).
    rewrite <- app_assoc in Hi. auto.
Qed.
Lemma best_chosen s : chosen s (front ++ back) (best s).
Proof.
  unfold best. rewrite patterns_entries, map_app, fold_left_app. apply fold_chosen.
  - apply (fold_chosen s front [] None); [intros k mk m []|]. intros a k x b E. right. intros k' y Hi.
    assert (H : In (k', y) front) by (rewrite E; apply in_or_app; auto). cbn in H. destruct H as [H|[H|[H|[H|[]]]]]; injection H as <- _; intros [].
  - intros a k x b E. left. assert (H : In (k, x) back) by (rewrite E; apply in_or_app; right; left; auto).
    unfold back in H. apply in_map_iff in H as (l & El & _). injection El as <- _. exact I.
Qed.

(** What the lexer takes from a text that is not empty. *)
Lemma best_spec s : s <> [] ->
  match best s with
  | None => False
  | Some (n, None) => (n = 0 /\ forall k u v, u ++ v = s -> written k u -> u = []) \/ (n <> 0 /\ taken KSpace (firstn n s) (skipn n s))
  | Some (n, Some f) => exists k, k <> KSpace /\ (forall u, token_of k u = [f u]) /\ n <> 0 /\ taken k (firstn n s) (skipn n s)
  end.
Proof.
  intros Hs. pose proof (best_chosen s) as H. destruct (best s) as [[n mk]|]; cbn [chosen] in H.
  - destruct H as (k & m & Hin & Em & Hmax). destruct (entry_ok k mk m Hin) as ((Hsome & _) & Hmk).
    destruct (Hsome s n Em) as (u & v & Es & Hu & Hw).
    assert (Hall : forall k' u' v', u' ++ v' = s -> written k' u' -> length u' < n \/ (length u' = n /\ (literal k' -> literal k))).
    { intros k' u' v' E' Hw'. destruct (entry_of k' u' Hw') as (mk' & m' & Hin'). destruct (entry_ok k' mk' m' Hin') as ((_ & Hle) & _).
      destruct (Hle u' v' Hw') as (n' & En' & Hn'). rewrite E' in En'. destruct (Hmax k' mk' m' n' Hin' En') as [Hlt|[-> Hl]]; [left; lia|].
      destruct (Nat.eq_dec (length u') n) as [E|]; [right; auto|left; lia]. }
    assert (E1 : firstn n s = u) by (rewrite Es, <- Hu, firstn_app, Nat.sub_diag, firstn_all, firstn_O, app_nil_r; reflexivity).
    assert (E2 : skipn n s = v) by (rewrite Es, <- Hu, skipn_app, Nat.sub_diag, skipn_all; reflexivity).
    rewrite E1, E2.
    assert (Ht : n <> 0 -> taken k u v).
    { intros Hn. split; [intros ->; cbn in Hu; congruence|]. split; auto. intros k' u' v' E' Hw'. rewrite <- Es in E'. rewrite Hu. eauto. }
    destruct mk as [f|].
    + destruct Hmk as [Hk Hf]. assert (Hn : n <> 0); [|exists k; auto].
      intros ->. destruct u; [|discriminate]. destruct k; cbn in Hw; try congruence; try tauto.
      * destruct Hw as (c & E & _). discriminate.
      * destruct Hw as (c & E & _). discriminate.
      * repeat (destruct Hw as [Hw|Hw]; [discriminate|]). destruct Hw.
    + subst k. destruct (Nat.eq_dec n 0) as [->|Hn]; [left|right; auto]. split; auto. intros k' u' v' E' Hw'.
      destruct (Hall k' u' v' E' Hw') as [?|[E _]]; [lia|]. destruct u'; [auto|discriminate].
  - specialize (H KSpace None m_space). discriminate H. left. auto.
Qed.

(** The kind of a text taken is determined. *)
Lemma kind_unique k k' u : u <> [] -> written k u -> written k' u -> (literal k <-> literal k') -> token_of k u = token_of k' u.
Proof.
  intros Hu H H' Hl. destruct u as [|c u]; [congruence|]. 
  assert (F : forall k, written k (c :: u) ->
    match k with KSpace => space c | KStr => c = 34%N | KId => ident_start c | KCode => c = 40%N | KLit _ => True end).
  { intros [| | | |t] Hw; auto.
    - inversion Hw; auto.
    - destruct Hw as (b & E & _). congruence.
    - destruct Hw; auto.
    - destruct Hw as (b & E & _). congruence. }
  pose proof (F k H) as Fk. pose proof (F k' H') as Fk'. unfold space, ident_start in *.
  destruct k as [| | | |t], k' as [| | | |t']; try reflexivity; try (exfalso; cbn in Hl; tauto); try (exfalso; lia).
  cbn in H, H'. cbn [token_of].
  repeat (destruct H as [H|H]; [injection H as <- <- <-; repeat (destruct H' as [H'|H']; [try discriminate H'; congruence|]); destruct H'|]). destruct H.
Qed.
Lemma taken_unique k k' u u' v v' : taken k u v -> taken k' u' v' -> u ++ v = u' ++ v' -> u = u' /\ v = v' /\ token_of k u = token_of k' u.
Proof.
  intros (Hu & Hw & Hm) (Hu' & Hw' & Hm') E.
  destruct (Hm k' u' v' (eq_sym E) Hw') as [L1|[L1 K1]]; destruct (Hm' k u v E Hw) as [L2|[L2 K2]]; try lia.
  assert (u = u').
  { pose proof (f_equal (firstn (length u)) E) as E1. rewrite firstn_app, Nat.sub_diag, firstn_all, firstn_O, app_nil_r in E1.
    rewrite <- L1, firstn_app, Nat.sub_diag, firstn_all, firstn_O, app_nil_r in E1. auto. }
  subst u'. apply app_inv_head in E as ->. split; auto. split; auto. apply kind_unique; auto. split; auto.
Qed.

Lemma file_tokens_eq f s : s <> [] -> file_tokens (S f) s =
  match best s with
  | None => Panic PUnwrapNone
  | Some (n, None) => if n =? 0 then Panic PUnwrapNone else file_tokens f (skipn n s)
  | Some (n, Some mk) => let* ts := file_tokens f (skipn n s) in Ok (mk (firstn n s) :: ts)
  end.
Proof. destruct s; [congruence|reflexivity]. Qed.
Lemma file_tokens_sound fuel : forall s ts, file_tokens fuel s = Ok ts -> Tokens s ts.
Proof.
  induction fuel as [|f IH]; intros s ts E; (destruct s as [|c s]; [injection E as <-; constructor|]); [discriminate|].
  assert (Hs : c :: s <> []) by discriminate. rewrite (file_tokens_eq f _ Hs) in E. pose proof (best_spec _ Hs) as H. clear Hs. set (t := c :: s) in *. clearbody t. clear c s.
  destruct (best t) as [[n [mk|]]|]; [| |destruct H].
  - apply bind_ok in E as (ts' & E' & E). injection E as <-. destruct H as (k & _ & Hk & _ & Ht).
    rewrite <- (firstn_skipn n t) at 1. change (mk (firstn n t) :: ts') with ([mk (firstn n t)] ++ ts'). rewrite <- Hk.
    constructor; auto.
  - destruct (n =? 0) eqn:En; [discriminate|]. apply Nat.eqb_neq in En. destruct H as [[H _]|[_ Ht]]; [congruence|].
    rewrite <- (firstn_skipn n t). change ts with (token_of KSpace (firstn n t) ++ ts). constructor; auto.
Qed.
Lemma Tokens_unique s ts : Tokens s ts -> forall ts', Tokens s ts' -> ts = ts'.
Proof.
  induction 1 as [|k u v ts Ht H IH]; intros ts' H'.
  - inversion H' as [|k u v ts'' Ht _ E]; auto. destruct Ht as (Hu & _). destruct u; [congruence|discriminate].
  - inversion H' as [E|k' u' v' ts'' Ht' H'' E].
    + destruct Ht as (Hu & _). destruct u; [congruence|discriminate].
    + destruct (taken_unique k' k u' u v' v Ht' Ht E) as (-> & -> & ->). f_equal. auto.
Qed.
Lemma Tokens_inv s ts : Tokens s ts -> s <> [] -> exists k u v ts', taken k u v /\ Tokens v ts' /\ s = u ++ v /\ ts = token_of k u ++ ts'.
Proof. intros [|k u v ts' H1 H2] H; [congruence|]. exists k, u, v, ts'. auto. Qed.
Lemma file_tokens_total fuel : forall s, length s <= fuel ->
  (exists ts, file_tokens fuel s = Ok ts) \/ (file_tokens fuel s = Panic PUnwrapNone /\ forall ts, ~ Tokens s ts).
Proof.
  induction fuel as [|f IH]; intros s Hs; (destruct s as [|c s]; [left; eexists; destruct f; reflexivity|]) || (destruct s as [|c s]; [left; eexists; reflexivity|]); [cbn in Hs; lia|].
  assert (Hn0 : c :: s <> []) by discriminate. rewrite (file_tokens_eq f _ Hn0). pose proof (best_spec _ Hn0) as H. set (t := c :: s) in *. clearbody t. clear c s.
  destruct (best t) as [[n [mk|]]|]; [| |destruct H].
  - destruct H as (k & Hk & Hf & Hn & Ht). destruct (IH (skipn n t)) as [[ts E]|[E Hno]].
    + clear - Hs Hn Hn0. rewrite skipn_length. destruct t; cbn [length] in *; [congruence|lia].
    + left. rewrite E. eexists. reflexivity.
    + right. rewrite E. split; [reflexivity|]. intros ts H. apply Tokens_inv in H as (k' & u' & v' & ts'' & Ht' & H'' & E' & _); auto. symmetry in E'.
      rewrite <- (firstn_skipn n t) in E'. destruct (taken_unique _ _ _ _ _ _ Ht' Ht E') as (_ & -> & _). apply (Hno ts''); auto.
  - destruct (n =? 0) eqn:Hn; [apply Nat.eqb_eq in Hn; subst n|apply Nat.eqb_neq in Hn].
    + right. split; auto. intros ts H'. apply Tokens_inv in H' as (k' & u' & v' & ts'' & Ht' & H'' & E' & _); auto. symmetry in E'. destruct H as [[_ H]|[H _]]; [|congruence].
      destruct Ht' as (Hu & Hw & _). apply Hu. eapply H; eauto.
    + destruct H as [[H _]|[_ Ht]]; [congruence|]. destruct (IH (skipn n t)) as [[ts E]|[E Hno]].
      * clear - Hs Hn Hn0. rewrite skipn_length. destruct t; cbn [length] in *; [congruence|lia].
      * left. eauto.
      * right. split; auto. intros ts H. apply Tokens_inv in H as (k' & u' & v' & ts'' & Ht' & H'' & E' & _); auto. symmetry in E'.
        rewrite <- (firstn_skipn n t) in E'. destruct (taken_unique _ _ _ _ _ _ Ht' Ht E') as (_ & -> & _). apply (Hno ts''); auto.
Qed.
Lemma file_tokens_iff s ts : file_tokens (length s) s = Ok ts <-> Tokens s ts.
Proof.
  split; [apply file_tokens_sound|]. intros H. destruct (file_tokens_total (length s) s (le_n _)) as [[ts' E]|[_ Hno]].
  - rewrite E. f_equal. eapply Tokens_unique; eauto. eapply file_tokens_sound; eauto.
  - exfalso. eapply Hno; eauto.
Qed.

(** ** Layout *)

Lemma app_longer (u f u' v' : str) : u' ++ v' = u ++ f -> length u < length u' -> exists c w, u' = u ++ c :: w /\ f = c :: w ++ v'.
Proof.
  revert u'. induction u as [|d u IH]; intros u' E Hl; cbn [app length] in *.
  - destruct u' as [|c w]; [cbn in Hl; lia|]. exists c, w. auto.
  - destruct u' as [|d' u']; [cbn in Hl; lia|]. cbn [app length] in *. injection E as -> E. destruct (IH u' E) as (c & w & -> & ->); [lia|]. eauto.
Qed.
Lemma app_same (u f u' v' : str) : u' ++ v' = u ++ f -> length u' = length u -> u' = u /\ v' = f.
Proof.
  revert u'. induction u as [|d u IH]; intros [|d' u'] E Hl; cbn [app length] in *; try discriminate; auto.
  injection E as -> E. injection Hl as Hl. destruct (IH u' E Hl) as [-> ->]. auto.
Qed.

(** The kind of a token. *)
Definition kind_of (t : gtok) : kind := match t with GStr _ => KStr | GId _ => KId | GCode _ => KCode | _ => KLit t end.
Lemma kind_of_token t : token_of (kind_of t) (text_of t) = [t].
Proof. destruct t; reflexivity. Qed.
Lemma kind_of_written t : proper t -> written (kind_of t) (text_of t).
Proof. destruct t; intros H; auto; try (cbn; tauto). apply H. Qed.
Lemma ident_rests s : ident s -> Forall ident_rest s.
Proof. destruct s as [|c s]; [intros []|]. intros [H1 H2]. constructor; auto. left. auto. Qed.
Lemma word_b_rest s : forallb word_rest s = true -> Forall ident_rest s.
Proof. intros H. rewrite forallb_forall in H. apply Forall_forall. intros c Hc. apply word_rest_ok. auto. Qed.
(** What a text of a kind starts with. *)
Lemma written_head k u : written k u -> u <> [] -> exists c u', u = c :: u' /\
  match k with
  | KSpace => space c | KStr => c = 34%N | KId => Forall ident_rest u | KCode => c = 40%N
  | KLit _ => (keyword u /\ Forall ident_rest u) \/ In u [tx ":"; tx "="; tx "=>"; tx "["; tx "]"; tx "<"; tx ">"; tx ","]
  end.
Proof.
  intros H Hu. destruct u as [|c u]; [congruence|]. exists c, u. split; auto. destruct k as [| | | |t].
  - inversion H; auto.
  - destruct H as (b & E & _). congruence.
  - apply ident_rests. auto.
  - destruct H as (b & E & _). congruence.
  - cbn [written] in H.
    repeat (destruct H as [H|H];
      [injection H as <- <- _;
       first [left; split; [unfold keyword; cbn; tauto|apply word_b_rest; reflexivity] | right; cbn; tauto]|]).
    destruct H.
Qed.

Lemma taken_word k t f : proper t -> apart t f -> kind_of t = k ->
  match t with GExport | GStart | GR | GId _ => True | _ => False end -> taken k (text_of t) f.
Proof.
  intros Hp Ha Hk Ht.
  assert (Hid : ident (text_of t)).
  { destruct t; try destruct Ht; try apply Hp; cbn; (split; [apply word_start_ok; reflexivity|apply word_b_rest; reflexivity]). }
  assert (Hf : forall c v, f = c :: v -> ~ ident_rest c) by (destruct t; try destruct Ht; exact Ha).
  assert (Hne : text_of t <> []) by (intros E; rewrite E in Hid; destruct Hid).
  split; auto. split; [rewrite <- Hk; apply kind_of_written; auto|]. intros k' u' v' E Hw. destruct u' as [|c u'].
  { left. cbn. destruct (text_of t); [congruence|cbn; lia]. }
  assert (Hc : ident_start c). { destruct (text_of t) as [|d u]; [destruct Hid|]. injection E as -> _. apply Hid. }
  assert (Hle : Forall ident_rest (c :: u') -> length (c :: u') <= length (text_of t)).
  { intros HF. destruct (Nat.le_gt_cases (length (c :: u')) (length (text_of t))) as [|Hlt]; auto. exfalso.
    destruct (app_longer _ _ _ _ E Hlt) as (d & w & E1 & E2). apply (Hf _ _ E2). rewrite E1 in HF. apply Forall_app in HF as [_ HF]. inversion HF; auto. }
  destruct (written_head k' (c :: u') Hw ltac:(discriminate)) as (c' & u'' & E' & Hh). injection E' as <- <-.
  unfold ident_start in Hc. destruct k' as [| | | |t'].
  - exfalso. unfold space in Hh. lia.
  - exfalso. lia.
  - specialize (Hle Hh). destruct (Nat.eq_dec (length (c :: u')) (length (text_of t))); [right; split; auto; intros []|left; lia].
  - exfalso. lia.
  - destruct Hh as [[Hkw HF]|Hp'].
    + specialize (Hle HF). destruct (Nat.eq_dec (length (c :: u')) (length (text_of t))) as [E1|]; [|left; lia]. right. split; auto. intros _.
      destruct t; try destruct Ht; subst k; cbn [kind_of literal]; auto. destruct (app_same _ _ _ _ E E1) as [E2 _]. cbn [text_of] in E2.
      destruct Hp as [_ Hp]. apply Hp. rewrite <- E2. auto.
    + exfalso. cbn in Hp'. repeat (destruct Hp' as [Hp'|Hp']; [injection Hp' as <- _; lia|]). destruct Hp'.
Qed.

Lemma taken_token t f : proper t -> apart t f -> taken (kind_of t) (text_of t) f.
Proof.
  intros Hp Ha.
  destruct t; try (apply taken_word; auto; exact I).
  (* punctuation *)
  1-8: (split; [discriminate|]; split; [cbn; tauto|]; intros k' u' v' E Hw; (destruct u' as [|c u']; [left; cbn; lia|]);
    cbn [text_of] in E; assert (Hc := f_equal (hd 0%N) E); cbn in Hc; subst c;
    destruct (written_head k' _ Hw ltac:(discriminate)) as (c' & u'' & E' & Hh); injection E' as <- <-;
    destruct k' as [| | | |t'];
    [exfalso; unfold space in Hh; lia
    |exfalso; discriminate
    |exfalso; inversion Hh as [|x y Hx _]; unfold ident_rest, ident_start in Hx; lia
    |exfalso; discriminate
    |]).
  1-8: (destruct Hh as [[_ Hh]|Hh]; [exfalso; inversion Hh as [|x y Hx _]; unfold ident_rest, ident_start in Hx; lia|];
    cbn in Hh; repeat (destruct Hh as [Hh|Hh]; [first [discriminate Hh|injection Hh as <-]|]); try destruct Hh; cbn [length tx] in *; try (right; split; [reflexivity|intros _; exact I]);
    try (left; cbn; lia)).
  - exfalso. cbn in E. injection E as E. apply (Ha v'). auto.
  - (* a literal or regex text *)
    destruct Hp as (b & -> & Hb). split; [discriminate|]. split; [exists b; auto|]. intros k' u' v' E Hw. destruct u' as [|c u']; [left; cbn; lia|].
    cbn [text_of] in E. assert (Hc := f_equal (hd 0%N) E). cbn in Hc. subst c.
    destruct (written_head k' _ Hw ltac:(discriminate)) as (c' & u'' & E' & Hh); injection E' as <- <-. destruct k' as [| | | |t'].
    + exfalso; unfold space in Hh; lia.
    + destruct Hw as (b' & E' & Hb'). right. split; [|intros []]. rewrite E' in E. cbn [app] in E. injection E as E. rewrite <- !app_assoc in E. cbn [app] in E.
      pose proof (str_end_quotable b' v' Hb') as S1. pose proof (str_end_quotable b f Hb) as S2.
      rewrite E, S2 in S1. injection S1 as S1.
      cbn [text_of]. rewrite E'. cbn [length]. rewrite !app_length. cbn. lia.
    + exfalso; inversion Hh as [|x y Hx _]; unfold ident_rest, ident_start in Hx; lia.
    + exfalso; discriminate.
    + exfalso. destruct Hh as [[_ Hh]|Hh]; [inversion Hh as [|x y Hx _]; unfold ident_rest, ident_start in Hx; lia|].
      cbn in Hh; repeat (destruct Hh as [Hh|Hh]; [discriminate Hh|]). destruct Hh.
  - (* code *)
    destruct Hp as (b & -> & Hb). split; [discriminate|]. split; [exists b; auto|]. intros k' u' v' E Hw. destruct u' as [|c u']; [left; cbn; lia|].
    cbn [text_of] in E. assert (Hc := f_equal (hd 0%N) E). cbn in Hc. subst c.
    destruct (written_head k' _ Hw ltac:(discriminate)) as (c' & u'' & E' & Hh); injection E' as <- <-. destruct k' as [| | | |t'].
    + exfalso; unfold space in Hh; lia.
    + exfalso; discriminate.
    + exfalso; inversion Hh as [|x y Hx _]; unfold ident_rest, ident_start in Hx; lia.
    + destruct Hw as (b' & E' & Hb'). cbn [text_of].
      destruct (Nat.le_gt_cases (length (40%N :: u')) (length (40%N :: b ++ [41%N]))) as [Hle|Hgt].
      { destruct (Nat.eq_dec (length (40%N :: u')) (length (40%N :: b ++ [41%N]))); [right; split; auto; intros []|left; lia]. }
      exfalso. destruct (app_longer _ _ _ _ E Hgt) as (d & w & E1 & E2). injection E' as E'. cbn [app] in E1. injection E1 as E1.
      assert (E3 : exists w', d :: w = w' ++ [41%N]).
      { destruct (@exists_last _ (d :: w) ltac:(discriminate)) as (w' & z & Ez). exists w'. rewrite Ez in E1 |- *. rewrite E1, app_assoc in E'.
        apply app_inj_tail in E' as [_ ->]. reflexivity. }
      destruct E3 as (w' & E3). change (d :: w ++ v') with ((d :: w) ++ v') in E2. rewrite E3, <- app_assoc in E2. cbn [app] in E2.
      specialize (Ha _ _ E2). apply Hb'. rewrite E1, E3, app_assoc in E'. apply app_inj_tail in E' as [E' _]. rewrite <- E'. apply in_or_app. auto.
    + exfalso. destruct Hh as [[_ Hh]|Hh]; [inversion Hh as [|x y Hx _]; unfold ident_rest, ident_start in Hx; lia|].
      cbn in Hh; repeat (destruct Hh as [Hh|Hh]; [discriminate Hh|]). destruct Hh.
Qed.

Lemma token_head t : proper t -> exists c u, text_of t = c :: u /\ ~ space c.
Proof.
  intros H. destruct t; try (match goal with |- context [text_of ?t] => let v := eval vm_compute in (text_of t) in match v with ?c :: ?u => exists c, u end end; split; [reflexivity|unfold space; lia]).
  - destruct H as (b & -> & _). do 2 eexists. split; [reflexivity|]. unfold space; lia.
  - destruct H as [H _]. destruct s as [|c s]; [destruct H|]. do 2 eexists. split; [reflexivity|]. destruct H as [H _]. unfold space, ident_start in *. lia.
  - destruct H as (b & -> & _). do 2 eexists. split; [reflexivity|]. unfold space; lia.
Qed.

(** White space is taken up to the next character that is none. *)
Lemma taken_space u v : u <> [] -> Forall space u -> (forall c w, v = c :: w -> ~ space c) -> taken KSpace u v.
Proof.
  intros Hu HF Hv. split; auto. split; auto. intros k' u' v' E Hw. destruct u' as [|c u']; [left; destruct u; [congruence|cbn; lia]|].
  assert (Hc : space c). { destruct u as [|d u]; [congruence|]. injection E as -> _. inversion HF; auto. }
  destruct (written_head k' _ Hw ltac:(discriminate)) as (c' & u'' & E' & Hh). injection E' as <- <-. unfold space in Hc.
  destruct k' as [| | | |t'].
  - destruct (Nat.le_gt_cases (length (c :: u')) (length u)) as [Hle|Hgt].
    { destruct (Nat.eq_dec (length (c :: u')) (length u)); [right; split; auto|left; lia]. }
    exfalso. destruct (app_longer _ _ _ _ E Hgt) as (d & w & E1 & E2). apply (Hv _ _ E2). cbn [written] in Hw. rewrite E1 in Hw.
    apply Forall_app in Hw as [_ Hw]. inversion Hw; auto.
  - exfalso; lia.
  - exfalso; inversion Hh as [|x y Hx _]; unfold ident_rest, ident_start in Hx; lia.
  - exfalso; lia.
  - exfalso. destruct Hh as [[_ Hh]|Hh]; [inversion Hh as [|x y Hx _]; unfold ident_rest, ident_start in Hx; lia|].
    cbn in Hh; repeat (destruct Hh as [Hh|Hh]; [injection Hh as <- _; lia|]). destruct Hh.
Qed.
Lemma Tokens_space c v ts : space c -> Tokens v ts -> Tokens (c :: v) ts.
Proof.
  intros Hc H. destruct H as [|k u v ts Ht H].
  - change [c] with ([c] ++ []). change (@nil gtok) with (token_of KSpace [c] ++ []). constructor; [|constructor]. apply taken_space; [discriminate|auto|discriminate].
  - destruct (match k with KSpace => true | _ => false end) eqn:Ek.
    + destruct k; try discriminate. change (c :: u ++ v) with ((c :: u) ++ v). change (token_of KSpace u ++ ts) with (token_of KSpace (c :: u) ++ ts).
      constructor; auto. destruct Ht as (Hu & Hw & Hm). apply taken_space; [discriminate|constructor; auto|].
      intros d w -> Hd. destruct (Hm KSpace (u ++ [d]) w) as [H1|[H1 _]]; [rewrite <- app_assoc; reflexivity|apply Forall_app; auto|..]; rewrite app_length in H1; cbn in H1; lia.
    + change (c :: u ++ v) with ([c] ++ u ++ v). change (token_of k u ++ ts) with (token_of KSpace [c] ++ token_of k u ++ ts).
      constructor; [|constructor; auto]. apply taken_space; [discriminate|auto|]. intros d w E Hd. destruct Ht as (Hu & Hw & _).
      destruct (written_head k u Hw Hu) as (d' & u' & -> & Hh). injection E as -> _. unfold space in Hd. destruct k; try discriminate; try lia.
      * inversion Hh as [|x y Hx _]; unfold ident_rest, ident_start in Hx; lia.
      * destruct Hh as [[_ Hh]|Hh]; [inversion Hh as [|x y Hx _]; unfold ident_rest, ident_start in Hx; lia|].
        cbn in Hh; repeat (destruct Hh as [Hh|Hh]; [injection Hh as <- _; lia|]). destruct Hh.
Qed.
Lemma Lay_Tokens s ts : Lay s ts -> Tokens s ts.
Proof.
  induction 1 as [|c v ts Hc _ IH|t v ts Hp Ha _ IH]; [constructor|apply Tokens_space; auto|].
  change (t :: ts) with ([t] ++ ts). rewrite <- (kind_of_token t). constructor; auto. apply taken_token; auto.
Qed.

(** A token taken is proper and nothing after it continues it. *)
Lemma taken_apart k u v : taken k u v -> k <> KSpace -> exists t, token_of k u = [t] /\ text_of t = u /\ proper t /\ apart t v.
Proof.
  intros (Hu & Hw & Hm) Hk.
  assert (Hid : ident u -> forall c w, v = c :: w -> ~ ident_rest c).
  { intros Hi c w -> Hc. destruct (Hm KId (u ++ [c]) w) as [H|[H _]]; [rewrite <- app_assoc; reflexivity| |rewrite app_length in H; cbn in H; lia..].
    destruct u as [|d u]; [congruence|]. destruct Hi as [H1 H2]. split; auto. apply Forall_app. auto. }
  destruct k as [| | | |t]; [congruence| | | |].
  - exists (GStr u). repeat split; auto.
  - exists (GId u). split; [reflexivity|]. split; [reflexivity|]. split; [|exact (Hid Hw)]. split; auto. intros Hkw.
    assert (H : exists t, written (KLit t) u) by (destruct Hkw as [<-|[<-|[<-|[]]]]; eexists; cbn; [left|right; left|right; right; left]; reflexivity).
    destruct H as (t & Ht). destruct (Hm (KLit t) u v eq_refl Ht) as [H|[_ H]]; [lia|]. apply (H I).
  - exists (GCode u). repeat split; auto. intros w z Ev. destruct (in_dec N.eq_dec 10%N w) as [|Hn]; auto. exfalso.
    destruct Hw as (b & -> & Hb). destruct (Hm KCode ((40%N :: b ++ [41%N]) ++ w ++ [41%N]) z) as [H|[H _]];
      [rewrite Ev, <- !app_assoc; reflexivity| |rewrite !app_length in H; cbn in H; rewrite ?app_length in H; cbn in H; lia..].
    exists (b ++ [41%N] ++ w). split; [cbn; rewrite <- !app_assoc; reflexivity|]. rewrite !in_app_iff. intros [H|[[H|[]]|H]]; auto. discriminate.
  - exists t. split; [reflexivity|]. cbn [written] in Hw.
    assert (Hlit : text_of t = u /\ proper t /\ (apart t v \/ (t = GExport \/ t = GStart \/ t = GR) \/ t = GEq)).
    { repeat (destruct Hw as [Hw|Hw]; [injection Hw as <- <-; split; [reflexivity|]; split; [exact I|]; cbn; tauto|]). destruct Hw. }
    destruct Hlit as (H1 & H2 & H3). split; auto. split; auto. destruct H3 as [H3|[H3| ->]]; auto.
    + assert (Hi : ident u). { rewrite <- H1. destruct H3 as [->|[->| ->]]; (split; [apply word_start_ok; reflexivity|apply word_b_rest; reflexivity]). }
      destruct H3 as [->|[->| ->]]; exact (Hid Hi).
    + cbn [apart]. intros w ->. rewrite <- H1 in Hm. destruct (Hm (KLit GArrow) (tx "=>") w eq_refl) as [H|[H _]]; [cbn; tauto|cbn in H; lia|discriminate H].
Qed.
Lemma Tokens_Lay s ts : Tokens s ts -> Lay s ts.
Proof.
  induction 1 as [|k u v ts Ht _ IH]; [constructor|]. destruct (match k with KSpace => true | _ => false end) eqn:Ek.
  - destruct k; try discriminate. cbn [token_of app]. destruct Ht as (_ & Hw & _). cbn [written] in Hw. clear Ek. induction Hw; [exact IH|]. constructor; auto.
  - destruct (taken_apart k u v Ht) as (t & -> & <- & Hp & Ha); [intros ->; discriminate|]. cbn [app]. constructor; auto.
Qed.
Lemma Tokens_proper s ts : Tokens s ts -> Forall proper ts.
Proof. intros H. apply Tokens_Lay in H. induction H; auto. Qed.

(** ** The parser *)

Lemma parse_symbol_sound ts x r : Forall proper ts -> parse_symbol ts = Ok (x, r) -> exists u, ts = u ++ r /\ Symbol_ u x.
Proof.
  intros Hp E. destruct ts as [|t ts]; [discriminate|]. inversion Hp as [|? ? Ht Hp']; subst. destruct t; try discriminate; cbn [parse_symbol] in E.
  - destruct ts as [|t ts]; [discriminate|]. destruct t; try discriminate. inversion Hp' as [|? ? Ht' _]; subst. destruct Ht' as (c & -> & _).
    rewrite (proj2 (proj2 (C45_content 34 34 c))) in E. injection E as <- <-. exists [GR; GStr (34%N :: c ++ [34%N])]. split; [reflexivity|constructor].
  - destruct Ht as (c & -> & _). rewrite (proj1 (C45_content 34 34 c)) in E. injection E as <- <-. exists [GStr (34%N :: c ++ [34%N])]. split; [reflexivity|constructor].
  - injection E as <- <-. exists [GId s]. split; [reflexivity|constructor].
Qed.
Lemma parse_symbol_complete u x r : Symbol_ u x -> parse_symbol (u ++ r) = Ok (x, r).
Proof.
  intros [c|c|n]; cbn [app parse_symbol].
  - rewrite (proj1 (C45_content 34 34 c)). reflexivity.
  - rewrite (proj2 (proj2 (C45_content 34 34 c))). reflexivity.
  - reflexivity.
Qed.
Definition fails {A} (r : res A) : Prop := r = Panic PUnwrapNone.
Lemma parse_symbol_total ts : Forall proper ts -> (exists xr, parse_symbol ts = Ok xr) \/ fails (parse_symbol ts).
Proof.
  intros Hp. destruct ts as [|t ts]; [right; reflexivity|]. inversion Hp as [|? ? Ht Hp']; subst. destruct t; try (right; reflexivity); cbn [parse_symbol].
  - destruct ts as [|t ts]; [right; reflexivity|]. destruct t; try (right; reflexivity). inversion Hp' as [|? ? Ht' _]; subst. destruct Ht' as (c & -> & _).
    rewrite (proj2 (proj2 (C45_content 34 34 c))). left. eexists. reflexivity.
  - destruct Ht as (c & -> & _). rewrite (proj1 (C45_content 34 34 c)). left. eexists. reflexivity.
  - left. eexists. reflexivity.
Qed.

(** The cases of [parse_named]. *)
Lemma parse_named_plain ts : (forall n r, ts <> GLess :: GId n :: GColon :: r) -> parse_named ts = parse_symbol ts.
Proof.
  intros H. destruct ts as [|t ts]; [reflexivity|]. destruct t; try reflexivity. destruct ts as [|t ts]; [reflexivity|]. destruct t; try reflexivity.
  destruct ts as [|t ts]; [reflexivity|]. destruct t; try reflexivity. exfalso. eapply H. reflexivity.
Qed.
Lemma named_cases ts : (exists n r, ts = GLess :: GId n :: GColon :: r) \/ forall n r, ts <> GLess :: GId n :: GColon :: r.
Proof.
  destruct ts as [|t ts]; [right; discriminate|]. destruct t; try (right; discriminate). destruct ts as [|t ts]; [right; discriminate|]. destruct t; try (right; discriminate).
  destruct ts as [|t ts]; [right; discriminate|]. destruct t; try (right; discriminate). left. eauto.
Qed.
Lemma parse_named_sound ts x r : Forall proper ts -> parse_named ts = Ok (x, r) -> exists u, ts = u ++ r /\ Named_ u x.
Proof.
  intros Hp E. destruct (named_cases ts) as [(n & r0 & ->)|Hn].
  - cbn [parse_named] in E. apply bind_ok in E as ([y r1] & E1 & E). cbn [fst snd] in E.
    do 3 (apply Forall_inv_tail in Hp). destruct (parse_symbol_sound r0 y r1 Hp E1) as (u & -> & Hu).
    destruct r1 as [|t r1]; [discriminate|]. destruct t; try discriminate. injection E as <- <-.
    exists (GLess :: GId n :: GColon :: u ++ [GMore]). split; [cbn; rewrite <- app_assoc; reflexivity|]. constructor. auto.
  - rewrite parse_named_plain in E by auto. destruct (parse_symbol_sound ts x r Hp E) as (u & -> & Hu). exists u. split; auto. constructor. auto.
Qed.
Lemma parse_named_complete u x r : Named_ u x -> parse_named (u ++ r) = Ok (x, r).
Proof.
  intros [n ts y H|ts y H].
  - cbn [app parse_named]. rewrite <- app_assoc. rewrite (parse_symbol_complete _ _ _ H). reflexivity.
  - rewrite parse_named_plain; [apply parse_symbol_complete; auto|]. intros n r' E. destruct H; discriminate.
Qed.
Lemma parse_named_total ts : Forall proper ts -> (exists xr, parse_named ts = Ok xr) \/ fails (parse_named ts).
Proof.
  intros Hp. destruct (named_cases ts) as [(n & r0 & ->)|Hn]; [|rewrite parse_named_plain by auto; apply parse_symbol_total; auto].
  cbn [parse_named]. do 3 (apply Forall_inv_tail in Hp). destruct (parse_symbol_total r0 Hp) as [[[y r] E]|E]; rewrite E; [|right; reflexivity].
  cbn [bind fst snd]. destruct r as [|t r]; [right; reflexivity|]. destruct t; try (right; reflexivity). left. eexists. reflexivity.
Qed.
Lemma Named_head u x : Named_ u x -> exists t u', u = t :: u' /\ t <> GArrow /\ t <> GClose.
Proof. intros [n ts y H|ts y [c|c|n]]; do 2 eexists; (split; [reflexivity|split; discriminate]). Qed.

Lemma parse_syms_eq f ts : parse_syms (S f) ts =
  let* xr := parse_named ts in
  if match snd xr with GArrow :: _ => true | _ => false end then Ok ([fst xr], tl (snd xr))
  else let* xsr := parse_syms f (snd xr) in Ok (fst xr :: fst xsr, snd xsr).
Proof. cbn [parse_syms]. destruct (parse_named ts) as [[x r]| |]; cbn [bind fst snd]; auto. destruct r as [|t r]; auto. destruct t; auto. Qed.
Lemma parse_syms_sound f : forall ts xs r, Forall proper ts -> parse_syms f ts = Ok (xs, r) -> exists u, ts = u ++ GArrow :: r /\ Names_ u xs.
Proof.
  induction f as [|f IH]; intros ts xs r Hp E; [discriminate|]. rewrite parse_syms_eq in E. apply bind_ok in E as ([x r0] & E1 & E). cbn [fst snd] in E.
  destruct (parse_named_sound ts x r0 Hp E1) as (u & -> & Hu). apply Forall_app in Hp as [_ Hp].
  destruct (match r0 with GArrow :: _ => true | _ => false end) eqn:Er.
  - destruct r0 as [|t r0]; [discriminate|]. destruct t; try discriminate. injection E as <- <-. exists u. split; auto. constructor. auto.
  - apply bind_ok in E as ([xs' r'] & E2 & E). cbn [fst snd] in E. injection E as <- <-. destruct (IH r0 xs' r' Hp E2) as (u' & -> & Hu').
    exists (u ++ u'). split; [rewrite <- app_assoc; reflexivity|]. constructor; auto.
Qed.
Lemma parse_syms_complete u xs : Names_ u xs -> forall f r, length u <= f -> parse_syms f (u ++ GArrow :: r) = Ok (xs, r).
Proof.
  induction 1 as [ts x H|ts x ts' xs H H' IH]; intros f r Hf; destruct (Named_head _ _ H) as (t & u' & -> & _ & _).
  - destruct f as [|f]; [cbn in Hf; lia|]. rewrite parse_syms_eq, (parse_named_complete _ _ _ H). reflexivity.
  - destruct f as [|f]; [cbn in Hf; lia|]. rewrite <- app_assoc, parse_syms_eq, (parse_named_complete _ _ _ H). cbn [bind fst snd].
    assert (E : match ts' ++ GArrow :: r with GArrow :: _ => true | _ => false end = false).
    { assert (Hh : exists t' u'', ts' = t' :: u'' /\ t' <> GArrow).
      { destruct H' as [a b Hn|a b c d Hn _]; destruct (Named_head _ _ Hn) as (t' & u'' & -> & Hx & _); eexists; eexists; split; try reflexivity; auto. }
      destruct Hh as (t' & u'' & -> & Hx). cbn [app]. destruct t'; congruence. }
    rewrite E, IH; [reflexivity|]. rewrite app_length in Hf. cbn in Hf. lia.
Qed.
Lemma parse_syms_total f : forall ts, Forall proper ts -> length ts < f -> (exists xr, parse_syms f ts = Ok xr) \/ fails (parse_syms f ts).
Proof.
  induction f as [|f IH]; intros ts Hp Hf; [lia|]. rewrite parse_syms_eq. destruct (parse_named_total ts Hp) as [[[x r] E]|E]; rewrite E; [|right; reflexivity].
  cbn [bind fst snd]. destruct (match r with GArrow :: _ => true | _ => false end); [left; eexists; reflexivity|].
  destruct (parse_named_sound ts x r Hp E) as (u & -> & Hu). apply Forall_app in Hp as [_ Hp]. destruct (Named_head _ _ Hu) as (t & u' & -> & _).
  rewrite app_length in Hf. cbn in Hf. destruct (IH r Hp) as [[xr E']|E']; [lia|..]; rewrite E'; [left; eexists; reflexivity|right; reflexivity].
Qed.

Lemma parse_body_sound f ts b r : Forall proper ts -> parse_body f ts = Ok (b, r) -> exists u, ts = u ++ r /\ Body_ u b.
Proof.
  unfold parse_body. intros Hp E. apply bind_ok in E as ([xs r0] & E1 & E). cbn [fst snd] in E.
  destruct (parse_syms_sound f ts xs r0 Hp E1) as (u & -> & Hu). apply Forall_app in Hp as [_ Hp]. apply Forall_inv_tail in Hp.
  destruct r0 as [|t r0]; [discriminate|]. destruct t; try discriminate. apply Forall_inv in Hp. destruct Hp as (c & -> & _).
  rewrite (proj1 (proj2 (C45_content 40 41 c))) in E. injection E as <- <-. exists (u ++ [GArrow; GCode (40%N :: c ++ [41%N])]).
  split; [rewrite <- app_assoc; reflexivity|]. constructor. auto.
Qed.
Lemma parse_body_complete u b : Body_ u b -> forall f r, length u <= f -> parse_body f (u ++ r) = Ok (b, r).
Proof.
  intros [ts xs c H] f r Hf. unfold parse_body. rewrite <- app_assoc. cbn [app]. rewrite app_length in Hf.
  rewrite (parse_syms_complete _ _ H) by lia. cbn [bind fst snd]. rewrite (proj1 (proj2 (C45_content 40 41 c))). reflexivity.
Qed.
Lemma parse_body_total f ts : Forall proper ts -> length ts < f -> (exists xr, parse_body f ts = Ok xr) \/ fails (parse_body f ts).
Proof.
  intros Hp Hf. unfold parse_body. destruct (parse_syms_total f ts Hp Hf) as [[[xs r] E]|E]; rewrite E; [|right; reflexivity]. cbn [bind fst snd].
  destruct (parse_syms_sound f ts xs r Hp E) as (u & -> & Hu). apply Forall_app in Hp as [_ Hp]. apply Forall_inv_tail in Hp.
  destruct r as [|t r]; [right; reflexivity|]. destruct t; try (right; reflexivity). apply Forall_inv in Hp. destruct Hp as (c & -> & _).
  rewrite (proj1 (proj2 (C45_content 40 41 c))). left. eexists. reflexivity.
Qed.
Lemma Body_head u b : Body_ u b -> exists t u', u = t :: u' /\ t <> GClose.
Proof. intros [ts xs c [a b' H|a b' c' d H _]]; destruct (Named_head _ _ H) as (t & u' & -> & _ & Hx); do 2 eexists; (split; [reflexivity|auto]). Qed.

Lemma parse_bodies_eq f ts : parse_bodies (S f) ts =
  if match ts with GClose :: _ => true | _ => false end then Ok ([], tl ts)
  else let* br := parse_body f ts in
       match snd br with
       | GComma :: r => let* bsr := parse_bodies f r in Ok (fst br :: fst bsr, snd bsr)
       | GClose :: r => Ok ([fst br], r)
       | _ => Panic PUnwrapNone
       end.
Proof. cbn [parse_bodies]. destruct ts as [|t ts]; auto. destruct t; auto. Qed.
Lemma parse_bodies_sound f : forall ts bs r, Forall proper ts -> parse_bodies f ts = Ok (bs, r) -> exists u, ts = u ++ GClose :: r /\ Bodies_ u bs.
Proof.
  induction f as [|f IH]; intros ts bs r Hp E; [discriminate|]. rewrite parse_bodies_eq in E.
  destruct (match ts with GClose :: _ => true | _ => false end) eqn:Et.
  { destruct ts as [|t ts]; [discriminate|]. destruct t; try discriminate. injection E as <- <-. exists []. split; [reflexivity|constructor]. }
  apply bind_ok in E as ([b r0] & E1 & E). cbn [fst snd] in E. destruct (parse_body_sound f ts b r0 Hp E1) as (u & -> & Hu).
  apply Forall_app in Hp as [_ Hp]. destruct r0 as [|t r0]; [discriminate|]. destruct t; try discriminate.
  - injection E as <- <-. exists u. split; auto. constructor. auto.
  - apply bind_ok in E as ([bs' r'] & E2 & E). cbn [fst snd] in E. injection E as <- <-. apply Forall_inv_tail in Hp.
    destruct (IH r0 bs' r' Hp E2) as (u' & -> & Hu'). exists (u ++ GComma :: u'). split; [rewrite <- app_assoc; reflexivity|]. constructor; auto.
Qed.
Lemma parse_bodies_complete u bs : Bodies_ u bs -> forall f r, length u < f -> parse_bodies f (u ++ GClose :: r) = Ok (bs, r).
Proof.
  induction 1 as [|ts b H|ts b ts' bs H H' IH]; intros f r Hf; (destruct f as [|f]; [lia|]); rewrite parse_bodies_eq.
  - reflexivity.
  - destruct (Body_head _ _ H) as (t & u' & -> & Ht). replace (match (t :: u') ++ GClose :: r with GClose :: _ => true | _ => false end) with false by (cbn; destruct t; congruence).
    rewrite (parse_body_complete _ _ H) by lia. reflexivity.
  - destruct (Body_head _ _ H) as (t & u' & -> & Ht). rewrite app_length in Hf. cbn [length] in Hf.
    replace (match ((t :: u') ++ GComma :: ts') ++ GClose :: r with GClose :: _ => true | _ => false end) with false by (cbn; destruct t; congruence).
    rewrite <- app_assoc, (parse_body_complete _ _ H) by (cbn; lia). cbn [bind fst snd app]. rewrite IH by lia. reflexivity.
Qed.
Lemma parse_bodies_total f : forall ts, Forall proper ts -> S (length ts) < f -> (exists xr, parse_bodies f ts = Ok xr) \/ fails (parse_bodies f ts).
Proof.
  induction f as [|f IH]; intros ts Hp Hf; [lia|]. rewrite parse_bodies_eq. destruct (match ts with GClose :: _ => true | _ => false end); [left; eexists; reflexivity|].
  destruct (parse_body_total f ts Hp) as [[[b r] E]|E]; [lia|..]; rewrite E; [|right; reflexivity]. cbn [bind fst snd].
  destruct (parse_body_sound f ts b r Hp E) as (u & -> & Hu). apply Forall_app in Hp as [_ Hp]. destruct r as [|t r]; [right; reflexivity|].
  rewrite app_length in Hf. cbn in Hf.
  destruct t; try (right; reflexivity); [left; eexists; reflexivity|]. apply Forall_inv_tail in Hp.
  destruct (IH r Hp) as [[xr E']|E']; [lia|..]; rewrite E'; [left; eexists; reflexivity|right; reflexivity].
Qed.

Lemma parse_rule_cases ts : (exists n c r, ts = GId n :: GColon :: GCode c :: GEq :: GOpen :: r) \/ forall f s, parse_rule f s ts = Panic PUnwrapNone.
Proof.
  destruct ts as [|t ts]; [right; reflexivity|]. destruct t; try (right; reflexivity).
  destruct ts as [|t ts]; [right; reflexivity|]. destruct t; try (right; reflexivity).
  destruct ts as [|t ts]; [right; reflexivity|]. destruct t; try (right; reflexivity).
  destruct ts as [|t ts]; [right; reflexivity|]. destruct t; try (right; reflexivity).
  destruct ts as [|t ts]; [right; reflexivity|]. destruct t; try (right; reflexivity). left. eauto.
Qed.
Lemma parse_rule_sound f s ts p r : Forall proper ts -> parse_rule f s ts = Ok (p, r) ->
  exists n c u bs, ts = [GId n; GColon; GCode (40%N :: c ++ [41%N]); GEq; GOpen] ++ u ++ GClose :: r /\ Bodies_ u bs /\ p = AProd n bs s c.
Proof.
  intros Hp E. destruct (parse_rule_cases ts) as [(n & c & r0 & ->)|Hx]; [|rewrite Hx in E; discriminate].
  inversion Hp as [|? ? _ Hp1]; subst. inversion Hp1 as [|? ? _ Hp2]; subst. inversion Hp2 as [|? ? Hc Hp3]; subst. do 2 apply Forall_inv_tail in Hp3.
  destruct Hc as (c' & -> & _). cbn [parse_rule] in E. rewrite (proj1 (proj2 (C45_content 40 41 c'))) in E. cbn [bind] in E.
  apply bind_ok in E as ([bs r'] & E1 & E). cbn [fst snd] in E. injection E as <- <-. destruct (parse_bodies_sound f r0 bs r' Hp3 E1) as (u & -> & Hu).
  exists n, c', u, bs. auto.
Qed.
Lemma parse_rule_complete f s n c u bs r : Bodies_ u bs -> length u < f ->
  parse_rule f s ([GId n; GColon; GCode (40%N :: c ++ [41%N]); GEq; GOpen] ++ u ++ GClose :: r) = Ok (AProd n bs s c, r).
Proof.
  intros H Hf. cbn [app parse_rule]. rewrite (proj1 (proj2 (C45_content 40 41 c))). cbn [bind]. rewrite (parse_bodies_complete _ _ H) by auto. reflexivity.
Qed.
Lemma parse_rule_total f s ts : Forall proper ts -> length ts <= f -> (exists xr, parse_rule f s ts = Ok xr) \/ fails (parse_rule f s ts).
Proof.
  intros Hp Hf. destruct (parse_rule_cases ts) as [(n & c & r0 & ->)|Hx]; [|right; apply Hx].
  inversion Hp as [|? ? _ Hp1]; subst. inversion Hp1 as [|? ? _ Hp2]; subst. inversion Hp2 as [|? ? Hc Hp3]; subst. do 2 apply Forall_inv_tail in Hp3.
  destruct Hc as (c' & -> & _). cbn [parse_rule]. rewrite (proj1 (proj2 (C45_content 40 41 c'))). cbn [bind].
  destruct (parse_bodies_total f r0 Hp3) as [[xr E]|E]; [cbn in Hf; lia|..]; rewrite E; [left; eexists; reflexivity|right; reflexivity].
Qed.

Lemma parse_production_cases f ts :
  (exists r, ts = GExport :: GStart :: r /\ parse_production f ts = parse_rule f true r) \/
  (exists r, ts = GExport :: r /\ parse_production f ts = parse_rule f false r) \/
  parse_production f ts = parse_rule f false ts.
Proof.
  destruct ts as [|t ts]; [right; right; reflexivity|]. destruct t; try (right; right; reflexivity).
  destruct ts as [|t ts]; [right; left; eexists; split; reflexivity|]. destruct t; try (right; left; eexists; split; reflexivity).
  left. eexists. split; reflexivity.
Qed.
Lemma parse_production_sound f ts p r : Forall proper ts -> parse_production f ts = Ok (p, r) -> exists u, ts = u ++ r /\ Rule_ u p.
Proof.
  intros Hp E.
  assert (G : forall fr s r0, In (fr, s) [([], false); ([GExport], false); ([GExport; GStart], true)] -> ts = fr ++ r0 -> parse_rule f s r0 = Ok (p, r) -> exists u, ts = u ++ r /\ Rule_ u p).
  { intros fr s r0 Hin -> E0. apply Forall_app in Hp as [_ Hp]. destruct (parse_rule_sound f s r0 p r Hp E0) as (n & c & u & bs & -> & Hu & ->).
    eexists. split; [|constructor; eauto]. rewrite <- !app_assoc. reflexivity. }
  destruct (parse_production_cases f ts) as [(r0 & -> & E0)|[(r0 & -> & E0)|E0]]; rewrite E0 in E.
  - apply (G [GExport; GStart] true r0); auto. cbn. tauto.
  - apply (G [GExport] false r0); auto. cbn. tauto.
  - apply (G [] false ts); auto. cbn. tauto.
Qed.
Lemma parse_production_complete u p : Rule_ u p -> forall f r, length u <= f -> parse_production f (u ++ r) = Ok (p, r).
Proof.
  intros [fr s n c ts bs Hin H] f r Hf. rewrite !app_length in Hf. cbn in Hf.
  assert (E : parse_rule f s (([GId n; GColon; GCode (40%N :: c ++ [41%N]); GEq; GOpen] ++ ts ++ [GClose]) ++ r) = Ok (AProd n bs s c, r)).
  { replace (([GId n; GColon; GCode (40%N :: c ++ [41%N]); GEq; GOpen] ++ ts ++ [GClose]) ++ r) with
      ([GId n; GColon; GCode (40%N :: c ++ [41%N]); GEq; GOpen] ++ ts ++ GClose :: r) by (rewrite <- !app_assoc; reflexivity).
    apply parse_rule_complete; auto. lia. }
  rewrite <- app_assoc. destruct Hin as [Hin|[Hin|[Hin|[]]]]; injection Hin as <- <-; cbn [app]; exact E.
Qed.
Lemma parse_production_total f ts : Forall proper ts -> length ts <= f -> (exists xr, parse_production f ts = Ok xr) \/ fails (parse_production f ts).
Proof.
  intros Hp Hf. destruct (parse_production_cases f ts) as [(r0 & -> & E0)|[(r0 & -> & E0)|E0]]; rewrite E0; apply parse_rule_total; auto; cbn in Hf; try lia.
  - do 2 apply Forall_inv_tail in Hp. auto.
  - apply Forall_inv_tail in Hp. auto.
Qed.
Lemma Rule_length u p : Rule_ u p -> 0 < length u.
Proof. intros [fr s n c ts bs _ _]. rewrite !app_length. cbn. lia. Qed.

Lemma parse_program_eq f ts : parse_program (S f) ts =
  let* pr := parse_production f ts in
  if match snd pr with [] => true | _ => false end then Ok [fst pr] else let* ps := parse_program f (snd pr) in Ok (fst pr :: ps).
Proof. cbn [parse_program]. destruct (parse_production f ts) as [[p r]| |]; auto. cbn [bind fst snd]. destruct r; auto. Qed.
Lemma parse_program_sound f : forall ts ps, Forall proper ts -> parse_program f ts = Ok ps -> Program_ ts ps.
Proof.
  induction f as [|f IH]; intros ts ps Hp E; [discriminate|]. rewrite parse_program_eq in E. apply bind_ok in E as ([p r] & E1 & E). cbn [fst snd] in E.
  destruct (parse_production_sound f ts p r Hp E1) as (u & -> & Hu). apply Forall_app in Hp as [_ Hp].
  destruct (match r with [] => true | _ => false end) eqn:Er.
  - destruct r; [|discriminate]. injection E as <-. rewrite app_nil_r. constructor. auto.
  - apply bind_ok in E as (ps' & E2 & E). injection E as <-. constructor; auto.
Qed.
Lemma parse_program_complete ts ps : Program_ ts ps -> forall f, length ts < f -> parse_program f ts = Ok ps.
Proof.
  induction 1 as [ts p H|ts p ts' ps H H' IH]; intros f Hf; (destruct f as [|f]; [lia|]); rewrite parse_program_eq.
  - rewrite <- (app_nil_r ts). rewrite (parse_production_complete _ _ H) by lia. reflexivity.
  - rewrite app_length in Hf. pose proof (Rule_length _ _ H) as Hl. rewrite (parse_production_complete _ _ H) by lia. cbn [bind fst snd].
    assert (Hl' : 0 < length ts') by (destruct H' as [? ? Hr|? ? ? ? Hr _]; [|rewrite app_length]; apply Rule_length in Hr; lia).
    destruct (match ts' with [] => true | _ => false end) eqn:E; [destruct ts'; [cbn in Hl'; lia|discriminate]|]. rewrite IH by lia. reflexivity.
Qed.
Lemma parse_program_total f : forall ts, Forall proper ts -> length ts < f -> (exists ps, parse_program f ts = Ok ps) \/ fails (parse_program f ts).
Proof.
  induction f as [|f IH]; intros ts Hp Hf; [lia|]. rewrite parse_program_eq. destruct (parse_production_total f ts Hp) as [[[p r] E]|E]; [lia|..]; rewrite E; [|right; reflexivity].
  cbn [bind fst snd]. destruct (match r with [] => true | _ => false end); [left; eexists; reflexivity|].
  destruct (parse_production_sound f ts p r Hp E) as (u & -> & Hu). apply Forall_app in Hp as [_ Hp]. apply Rule_length in Hu. rewrite app_length in Hf.
  destruct (IH r Hp) as [[ps E']|E']; [lia|..]; rewrite E'; [left; eexists; reflexivity|right; reflexivity].
Qed.
