(** Properties C16-C21: the lexer of a grammar, the grammar tables and FIRST. *)
From Verif Require Import Base Regex Nfa NfaProofs Dfa DfaProofs Lex LexSpec LexNfa LexProofs PropsLex
  Grammar GrammarSpec GrammarProofs First FirstProofs LexGrammar LexGrammarProofs GrammarCheck.

Local Ltac compute_ok := vm_compute; reflexivity.

(** ** C16 *)

(** False in general: with the literal "a" and the regex a in one grammar, the literal's token
    gets the index of the regex. *)
Definition ex_clash_ast : list aprod :=
  [AProd [83]%N [ABody [IStr [97]%N] []; ABody [IReg [97]%N] []] true []].
Definition ex_parse1 (r : str) : option hir := match r with [c] => Some (HLit c) | _ => None end.

Theorem C16_own_index_refuted :
  exists parse ast g tokens L input tk i k,
    grammar_from_ast ast = Ok g /\ grammar_tokens parse g = Ok tokens /\ from_grammar parse g = Ok L /\
    lex L input = Ok [tk] /\
    (* the definition that produced the token is token [i] of the table *)
    first_match (map snd tokens) input 0 /\
    (exists h, nth_error tokens 0 = Some (TokenDef [97]%N true (Some i), h)) /\
    get_token g i = Some (SStr [97]%N) /\
    (* but it is given index [k], that of the regex *)
    convert_tokens L [tk] = Ok [(tk, k); (Token [69; 79; 70]%N None, 0)] /\
    get_token g k = Some (SReg [97]%N) /\ i <> k.
Proof.
  destruct (grammar_from_ast ex_clash_ast) as [g| |] eqn:Eg; [|vm_compute in Eg; discriminate Eg..].
  destruct (grammar_tokens ex_parse1 g) as [tokens| |] eqn:Et;
    [|vm_compute in Eg; injection Eg as <-; vm_compute in Et; discriminate Et..].
  destruct (from_grammar ex_parse1 g) as [L| |] eqn:EL;
    [|vm_compute in Eg; injection Eg as <-; vm_compute in EL; discriminate EL..].
  exists ex_parse1, ex_clash_ast, g, tokens, L, [97]%N, (Token [97]%N (Some [97]%N)), 1, 3.
  split; [exact Eg|]. split; [exact Et|]. split; [exact EL|].
  vm_compute in Eg. injection Eg as <-. vm_compute in Et. injection Et as <-.
  vm_compute in EL. injection EL as <-.
  split; [compute_ok|]. split; [split; [eexists; split; [reflexivity|constructor]|intros j h Hj; lia]|].
  split; [eexists; reflexivity|]. split; [reflexivity|]. split; [compute_ok|]. split; [reflexivity|discriminate].
Qed.
Print Assumptions C16_own_index_refuted.

(** Order and length are kept, one EOF is appended, and a name gets the index of the regex with
    that text if there is one, of the literal with that text otherwise.  An unknown name panics. *)
Theorem C16_convert_characterised :
  forall parse ast g L, grammar_from_ast ast = Ok g -> from_grammar parse g = Ok L ->
  forall ts,
  ((forall t, In t ts -> In (SStr (tk_name t)) (g_tokens g) \/ In (SReg (tk_name t)) (g_tokens g)) ->
   exists conv, convert_tokens L ts = Ok (conv ++ [(Token [69; 79; 70]%N None, 0)]) /\ map fst conv = ts /\
     forall t k, In (t, k) conv ->
       get_token g k = Some (SReg (tk_name t)) \/
       (get_token g k = Some (SStr (tk_name t)) /\ ~ In (SReg (tk_name t)) (g_tokens g))) /\
  ((exists t, In t ts /\ ~ In (SStr (tk_name t)) (g_tokens g) /\ ~ In (SReg (tk_name t)) (g_tokens g)) ->
   convert_tokens L ts = Panic PUnwrapNone).
Proof. exact convert_characterised. Qed.
Print Assumptions C16_convert_characterised.

(** The claim holds for the tokens of any input when no text is both a literal and a regex of
    the grammar. *)
Theorem C16_own_index_partial :
  forall parse ast g tokens L, grammar_from_ast ast = Ok g ->
  grammar_tokens parse g = Ok tokens -> from_grammar parse g = Ok L ->
  (forall s, ~ (In (SStr s) (g_tokens g) /\ In (SReg s) (g_tokens g))) ->
  forall input, exists ts, answer tokens L input ts /\
    forall out, lex L input = Ok out ->
    exists conv, convert_tokens L out = Ok (conv ++ [(Token [69; 79; 70]%N None, 0)]) /\ map fst conv = out /\
      Forall2 (fun x c => exists td h, nth_error tokens (snd (fst x)) = Some (td, h) /\ Lang h (snd x) /\
                 td_idx td = Some (snd c)) ts conv.
Proof. exact own_index. Qed.
Print Assumptions C16_own_index_partial.

(** ** C17 *)

Definition ex_kw_ast : list aprod :=
  [AProd [83]%N [ABody [IStr [105; 102]%N; IReg [119]%N] []; ABody [IReg [110]%N; INon [83]%N] []] true []].
Definition ex_parse_kw (r : str) : option hir :=
  if eqb r [119]%N then Some (HRep OneOrMore (HClass [(97, 122)%N]))
  else if eqb r [110]%N then Some (HRep OneOrMore (HClass [(48, 57)%N]))
  else None.

Example C16_nonvacuous : exists g tokens L conv,
  grammar_from_ast ex_kw_ast = Ok g /\ grammar_tokens ex_parse_kw g = Ok tokens /\
  from_grammar ex_parse_kw g = Ok L /\
  (forall s, ~ (In (SStr s) (g_tokens g) /\ In (SReg s) (g_tokens g))) /\
  lex L [105; 102; 32; 120]%N = Ok (map fst conv) /\
  convert_tokens L (map fst conv) = Ok (conv ++ [(Token [69; 79; 70]%N None, 0)]) /\
  map snd conv = [1; 4].
Proof.
  destruct (grammar_from_ast ex_kw_ast) as [g| |] eqn:Eg; [|vm_compute in Eg; discriminate Eg..].
  destruct (grammar_tokens ex_parse_kw g) as [tokens| |] eqn:Et;
    [|vm_compute in Eg; injection Eg as <-; vm_compute in Et; discriminate Et..].
  destruct (from_grammar ex_parse_kw g) as [L| |] eqn:EL;
    [|vm_compute in Eg; injection Eg as <-; vm_compute in EL; discriminate EL..].
  exists g, tokens, L, [(Token [105; 102]%N (Some [105; 102]%N), 1); (Token [119]%N (Some [120]%N), 4)].
  vm_compute in Eg. injection Eg as <-. vm_compute in Et. injection Et as <-.
  vm_compute in EL. injection EL as <-.
  split; [reflexivity|]. split; [reflexivity|]. split; [reflexivity|]. split.
  - intros s [H1 H2]. simpl in H1, H2.
    repeat match goal with H : _ \/ _ |- _ => destruct H end; try discriminate; congruence || tauto.
  - split; [compute_ok|]. split; compute_ok.
Qed.

(** A literal's definition matches exactly its own text. *)
Theorem C17_literal_exact :
  forall parse g tokens, grammar_tokens parse g = Ok tokens ->
  forall k s, get_token g k = Some (SStr s) ->
  exists h, In (TokenDef s true (Some k), h) tokens /\ forall w, Lang h w <-> w = s.
Proof.
  intros parse g tokens Et k s Hk. exists (lit_hir s). split; [|apply lit_hir_lang].
  apply (grammar_tokens_spec _ _ _ Et). exists k, (SStr s), s. auto.
Qed.
Print Assumptions C17_literal_exact.

(** Precedence is false in general, for the reason of C10: literal "bz" with the regexes
    [a-d]x, [a-i]y, [b-f]z; on "bz" the last regex is returned. *)
Definition ex_tie_ast : list aprod :=
  [AProd [83]%N [ABody [IStr [98; 122]%N; IReg [49]%N; IReg [50]%N; IReg [51]%N] []] true []].
Definition ex_parse_tie (r : str) : option hir :=
  match r with
  | [49] => Some (HConcat [HClass [(97, 100)]; HLit 120])
  | [50] => Some (HConcat [HClass [(97, 105)]; HLit 121])
  | [51] => Some (HConcat [HClass [(98, 102)]; HLit 122])
  | _ => None
  end%N.

Theorem C17_literal_first_refuted :
  exists parse ast g L s r h, grammar_from_ast ast = Ok g /\ from_grammar parse g = Ok L /\
    In (SStr s) (g_tokens g) /\ In (SReg r) (g_tokens g) /\ parse r = Some h /\ Lang h s /\
    lex L s = Ok [Token r (Some s)] /\ r <> s.
Proof.
  destruct (grammar_from_ast ex_tie_ast) as [g| |] eqn:Eg; [|vm_compute in Eg; discriminate Eg..].
  destruct (from_grammar ex_parse_tie g) as [L| |] eqn:EL;
    [|vm_compute in Eg; injection Eg as <-; vm_compute in EL; discriminate EL..].
  exists ex_parse_tie, ex_tie_ast, g, L, [98; 122]%N, [51]%N, (HConcat [HClass [(98, 102)]; HLit 122])%N.
  vm_compute in Eg. injection Eg as <-. vm_compute in EL. injection EL as <-.
  split; [reflexivity|]. split; [reflexivity|]. split; [simpl; tauto|]. split; [simpl; tauto|].
  split; [reflexivity|]. split; [|split; [compute_ok|discriminate]].
  apply (L_concat_cons _ _ [98]%N [122]%N); [eapply L_class; [left; reflexivity|lia]|].
  apply (L_concat_cons _ _ [122]%N []); constructor.
Qed.
Print Assumptions C17_literal_first_refuted.

(** It holds when the pieces refine the ranges of the grammar's tokens: if the
    text of a token is a literal of the grammar, the token is that literal's. *)
Theorem C17_literal_first_partial :
  forall parse ast g tokens L, grammar_from_ast ast = Ok g ->
  grammar_tokens parse g = Ok tokens -> from_grammar parse g = Ok L -> split_refines (map snd tokens) ->
  forall input, exists ts, answer tokens L input ts /\
    forall pos i u, In (pos, i, u) ts ->
      (In (SStr u) (g_tokens g) -> exists k h,
         nth_error tokens i = Some (TokenDef u true (Some k), h) /\ get_token g k = Some (SStr u)) /\
      (forall td h k s, nth_error tokens i = Some (td, h) -> td_idx td = Some k ->
         get_token g k = Some (SStr s) -> u = s).
Proof. exact literal_first. Qed.
Print Assumptions C17_literal_first_partial.

Example C17_nonvacuous : exists g tokens L,
  grammar_from_ast ex_kw_ast = Ok g /\ grammar_tokens ex_parse_kw g = Ok tokens /\
  from_grammar ex_parse_kw g = Ok L /\ split_refines (map snd tokens) /\
  lex L [105; 102; 32; 105]%N = Ok [Token [105; 102] (Some [105; 102]); Token [119] (Some [105])]%N.
Proof.
  destruct (grammar_from_ast ex_kw_ast) as [g| |] eqn:Eg; [|vm_compute in Eg; discriminate Eg..].
  destruct (grammar_tokens ex_parse_kw g) as [tokens| |] eqn:Et;
    [|vm_compute in Eg; injection Eg as <-; vm_compute in Et; discriminate Et..].
  destruct (from_grammar ex_parse_kw g) as [L| |] eqn:EL;
    [|vm_compute in Eg; injection Eg as <-; vm_compute in EL; discriminate EL..].
  exists g, tokens, L. vm_compute in Eg. injection Eg as <-. vm_compute in Et. injection Et as <-.
  vm_compute in EL. injection EL as <-.
  split; [reflexivity|]. split; [reflexivity|]. split; [reflexivity|]. split; [|compute_ok].
  apply split_b_ok. compute_ok.
Qed.

(** ** C18 *)

(** The table starts with EOF; the rest is the set of symbols used on right-hand sides, each
    once, literals before non-terminals before regexes.  [get_token_idx] finds a symbol's first
    index, so [get_token] undoes it. *)
Theorem C18_token_table :
  forall ast g, grammar_from_ast ast = Ok g ->
  get_token g 0 = Some SEof /\
  (forall x, (exists p, In p (g_prods g) /\ In x (p_syms p)) <-> exists i, 0 < i /\ get_token g i = Some x) /\
  (forall i j x, 0 < i -> 0 < j -> get_token g i = Some x -> get_token g j = Some x -> i = j) /\
  (forall x i, get_token_idx g x = Some i -> get_token g i = Some x) /\
  (forall x, get_token_idx g x = None -> forall i, get_token g i <> Some x) /\
  (forall i j a b, get_token g i = Some (SStr a) -> get_token g j = Some (SNon b) -> i < j) /\
  (forall i j a b, get_token g i = Some (SStr a) -> get_token g j = Some (SReg b) -> i < j) /\
  (forall i j a b, get_token g i = Some (SNon a) -> get_token g j = Some (SReg b) -> i < j).
Proof. exact token_table. Qed.
Print Assumptions C18_token_table.

(** If a right-hand side contains the Eof symbol (the AST allows it, grammar files do not), Eof
    has two indices. *)
Theorem C18_bijection_refuted :
  exists ast g i j x, grammar_from_ast ast = Ok g /\ i <> j /\ get_token g i = Some x /\ get_token g j = Some x.
Proof.
  eexists [AProd [83]%N [ABody [IEof] []] true []], _, 0, 2, SEof.
  split; [compute_ok|]. split; [discriminate|]. split; reflexivity.
Qed.
Print Assumptions C18_bijection_refuted.

(** Otherwise [get_token] and [get_token_idx] are mutually inverse. *)
Theorem C18_bijection_partial :
  forall ast g, grammar_from_ast ast = Ok g -> eof_free g ->
  forall x i, get_token_idx g x = Some i <-> get_token g i = Some x.
Proof.
  intros ast g Hg Hf x i. destruct (grammar_from_ast_ok _ _ Hg) as (st & _ & W & _).
  apply (token_idx_bij _ _ W), Hf.
Qed.
Print Assumptions C18_bijection_partial.

Example C18_nonvacuous : exists g, grammar_from_ast ex_kw_ast = Ok g /\ eof_free g /\
  g_tokens g = [SEof; SStr [105; 102]; SNon [83]; SReg [110]; SReg [119]]%N.
Proof.
  eexists. split; [compute_ok|]. split; [apply eof_free_b_ok; reflexivity|reflexivity].
Qed.

(** The grammar symbol a symbol of the AST denotes; the name given to it for the action is not
    part of it. *)
Inductive denotes : isym -> sym -> Prop :=
| dn_str s : denotes (IStr s) (SStr s)
| dn_reg r : denotes (IReg r) (SReg r)
| dn_non n : denotes (INon n) (SNon n)
| dn_eps : denotes IEps SEps
| dn_eof : denotes IEof SEof
| dn_named n x y : denotes x y -> denotes (INamed n x) y.

(** ** C19 *)
Theorem C19_productions :
  forall ast,
  ((forall p, In p ast -> ap_start p = false) -> grammar_from_ast ast = Panic PNoStart) /\
  forall ast1 st ast2, ast = ast1 ++ st :: ast2 -> ap_start st = true ->
    (forall p, In p ast1 -> ap_start p = false) ->
  exists g, grammar_from_ast ast = Ok g /\ g_start g = ap_name st ++ [39%N] /\
    (* production 0 *)
    get_production g 0 = Some (Production (ap_name st ++ [39%N]) [SNon (ap_name st)] None None) /\
    (* production k+1 is the k-th body in source order *)
    (forall k, match nth_error (flat_map (fun p => map (pair p) (ap_bodies p)) ast) k with
       | Some (p, b) => exists l, Forall2 denotes (ab_syms b) l /\
           get_production g (S k) = Some (Production (ap_name p) l (Some (ab_fn b)) (Some (ap_ts p)))
       | None => get_production g (S k) = None
       end) /\
    (* lookup by name *)
    (forall n, (exists i p, get_production g i = Some p /\ p_name p = n) ->
       exists ps, production_iter g n = Ok ps /\ production_indices g n = Some (map fst ps) /\
         (forall i j a b, i < j -> nth_error (map fst ps) i = Some a -> nth_error (map fst ps) j = Some b -> a < b) /\
         forall i p, In (i, p) ps <-> get_production g i = Some p /\ p_name p = n) /\
    (forall n, (forall i p, get_production g i = Some p -> p_name p <> n) ->
       production_iter g n = Panic PUnwrapNone /\ production_indices g n = None).
Proof.
  intros ast. destruct (productions_spec ast) as [H1 H2]. split; [exact H1|]. intros ast1 st ast2 E Hst Hno.
  destruct (H2 ast1 st ast2 E Hst Hno) as (g & Hg & Hs & H0 & Hk & Hr). exists g. split; [exact Hg|]. split; [exact Hs|]. split; [exact H0|].
  split; [|exact Hr]. intros k. specialize (Hk k). destruct (nth_error _ k) as [[p b]|]; [|exact Hk].
  exists (map lower (ab_syms b)). split; [|exact Hk]. clear. induction (ab_syms b) as [|x l IH]; constructor; auto.
  induction x; constructor; auto.
Qed.
Print Assumptions C19_productions.

Example C19_nonvacuous : exists g, grammar_from_ast ex_kw_ast = Ok g /\ length (g_prods g) = 3 /\
  (exists ps, production_iter g [83]%N = Ok ps /\ map fst ps = [1; 2]) /\
  production_iter g [84]%N = Panic PUnwrapNone.
Proof.
  eexists. split; [compute_ok|]. split; [reflexivity|]. split; [|reflexivity].
  eexists. split; [compute_ok|]. reflexivity.
Qed.

(** ** C20 *)

(** When [first] returns, it returns exactly the terminals that can begin a string derivable
    from a non-empty symbol string. *)
Theorem C20_first_correct :
  forall ast g, grammar_from_ast ast = Ok g -> eps_free g ->
  forall l s, l <> [] -> ~ In SEps l -> first g l = Ok s ->
  ssorted s /\ forall x, In x s <-> terminal x /\ exists b, derives g l (x :: b).
Proof.
  intros ast g Hg He l s Hl Hn H. destruct (grammar_from_ast_ok _ _ Hg) as (st & _ & W & _).
  destruct l as [|y l]; [tauto|]. assert (Hy : y <> SEps) by (intros ->; apply Hn; left; reflexivity).
  destruct (first_spec g _ W He y l s Hy H) as [Hs Hx]. split; [exact Hs|]. intros x. rewrite Hx.
  split.
  - intros [Hl' Ht]. split; [exact Ht|]. apply (lms_derives_iff g He y l x Ht), Hl'.
  - intros [Ht Hd]. split; [|exact Ht]. apply (lms_derives_iff g He y l x Ht), Hd.
Qed.
Print Assumptions C20_first_correct.

(** The empty string gives the mark for "nothing". *)
Theorem C20_first_empty : forall g, first g [] = Ok [SEps].
Proof. reflexivity. Qed.
Print Assumptions C20_first_empty.

(** The epsilon-free condition cannot be dropped: with A -> B c and B -> ε, the code takes A to
    be nullable, though no string derivable from A is empty or ε. *)
Theorem C20_epsilon_refuted :
  exists ast g s, grammar_from_ast ast = Ok g /\ first g [SNon [65]%N] = Ok s /\ In SEps s /\ forall b, derives g [SNon [65]%N] b -> b <> [] /\ b <> [SEps].
Proof.
  eexists [AProd [83] [ABody [INon [65]] []] true []; AProd [65] [ABody [INon [66]; IStr [99]] []] false [];
           AProd [66] [ABody [IEps] []] false []]%N, _, _.
  split; [compute_ok|]. split; [compute_ok|]. split; [simpl; tauto|].
  set (g := Grammar _ _ _ _).
  assert (G : forall a b, derives g a b ->
     (a = [SNon [65]] \/ a = [SNon [66]; SStr [99]] \/ a = [SEps; SStr [99]])%N ->
     (b = [SNon [65]] \/ b = [SNon [66]; SStr [99]] \/ b = [SEps; SStr [99]])%N).
  { intros a b H. induction H as [a|a b c H H' IH]; auto. intros Ha. apply IH. clear IH H'.
    destruct H as [u A body v (p & Hp & HA & Hb)]. simpl in Hp.
    destruct Hp as [<-|[<-|[<-|[<-|[]]]]]; simpl in HA, Hb; subst A body;
      destruct u as [|x [|y u]]; destruct Ha as [Ha|[Ha|Ha]]; try discriminate; injection Ha as; subst;
      try discriminate; auto; destruct u; discriminate. }
  intros b Hb. apply G in Hb; auto. destruct Hb as [-> |[-> | ->]]; split; discriminate.
Qed.
Print Assumptions C20_epsilon_refuted.

(** S -> C C, C -> c C | d *)
Definition ex_cc_ast : list aprod :=
  [AProd [83] [ABody [INon [67]; INon [67]] []] true [];
   AProd [67] [ABody [IStr [99]; INon [67]] []; ABody [IStr [100]] []] false []]%N.

Example C20_nonvacuous : exists g, grammar_from_ast ex_cc_ast = Ok g /\ eps_free g /\
  first g [SNon [67]%N; SEof] = Ok [SStr [99]%N; SStr [100]%N].
Proof.
  eexists. split; [compute_ok|]. split; [apply eps_free_b_ok; reflexivity|compute_ok].
Qed.

(** ** C21 *)

(** False: on a left-recursive non-terminal the recursion never ends, whatever the depth
    allowed. *)
Theorem C21_first_terminates_refuted :
  exists ast g, grammar_from_ast ast = Ok g /\ eps_free g /\ defined g /\
    forall fuel, first_with fuel g [SNon [69]%N] = Diverge.
Proof.
  eexists [AProd [69] [ABody [INon [69]; IStr [43]; IStr [120]] []; ABody [IStr [120]] []] true []]%N, _.
  split; [compute_ok|]. split; [apply eps_free_b_ok; reflexivity|]. split.
  - apply defined_b_ok. reflexivity.
  - apply first_div_all. compute_ok.
Qed.
Print Assumptions C21_first_terminates_refuted.

(** The model's recursion bound is exact: if it is exceeded, every bound is. *)
Theorem C21_fuel_exact :
  forall g l, (first g l = Diverge -> forall fuel, first_with fuel g l = Diverge) /\
    (forall fuel, first_fuel g <= fuel -> first_with fuel g l = first g l).
Proof. intros g l. split; [apply first_div_all|]. intros fuel. apply first_exact. Qed.
Print Assumptions C21_fuel_exact.

(** Exactly when it returns, for epsilon-free grammars: every non-terminal that can be leftmost in
    a string derivable from the first symbol has productions and is not left-recursive. *)
Theorem C21_first_returns_iff_partial :
  forall ast g, grammar_from_ast ast = Ok g -> eps_free g ->
  forall x l, x <> SEps ->
  (exists s, first g (x :: l) = Ok s) <->
  forall A b, derives g [x] (SNon A :: b) -> has_rule g A /\ ~ left_recursive g A.
Proof.
  intros ast g Hg He x l Hx. destruct (grammar_from_ast_ok _ _ Hg) as (st & _ & W & _).
  rewrite (first_returns_exact g _ W He x l Hx). split; intros H A.
  - intros b Hb. apply H. eapply derives_cons_head; eauto.
  - intros Hl. apply lms_derives in Hl as [b Hb]. eauto.
Qed.
Print Assumptions C21_first_returns_iff_partial.

(** An undefined non-terminal in first position panics. *)
Theorem C21_undefined_panics :
  forall ast g, grammar_from_ast ast = Ok g -> forall n l, ~ has_rule g n ->
  first g (SNon n :: l) = Panic PUnwrapNone.
Proof.
  intros ast g Hg n l Hn. destruct (grammar_from_ast_ok _ _ Hg) as (st & _ & W & _).
  unfold first, first_with, first_fuel. simpl.
  destruct (production_iter g n) as [ps|p|] eqn:E.
  - exfalso. apply Hn. apply (production_iter_defined _ _ W). eauto.
  - unfold production_iter in *. destruct (map_get n (g_names g)); [discriminate|].
    injection E as <-. reflexivity.
  - unfold production_iter in E. destruct (map_get n (g_names g)); discriminate.
Qed.
Print Assumptions C21_undefined_panics.

Example C21_nonvacuous : exists g, grammar_from_ast ex_cc_ast = Ok g /\ eps_free g /\ defined g /\
  has_rule g [67]%N /\ exists s, first g [SNon [67]%N] = Ok s.
Proof.
  eexists. split; [compute_ok|]. split; [apply eps_free_b_ok; reflexivity|].
  split; [apply defined_b_ok; reflexivity|]. split.
  - exists (Production [67] [SStr [100]] (Some []) (Some []))%N. split; [simpl; tauto|reflexivity].
  - eexists. compute_ok.
Qed.
