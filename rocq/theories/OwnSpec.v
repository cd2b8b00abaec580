(** Specification for C79: a grammar in which chosen tokens get rules of their own. *)
From Verif Require Import Base IsoSpec Grammar GrammarSpec ItemSpec.

(** [names] lists tokens with the names of their rules; [own names x] is what is written for [x]. *)
Definition own (names : list (sym * str)) (x : sym) : sym :=
  match find (fun e => eqb (fst e) x) names with Some e => SNon (snd e) | None => x end.

(** [ast'] is [ast] with the names instead of the tokens, and the rules of the names behind: each has one alternative,
    the token.  The names are new, and so is none of the tokens. *)
Record own_rules (names : list (sym * str)) (ast ast' : list aprod) : Prop := {
  ow_rules : ast_rules ast' = map (fun e => (fst e, map (own names) (snd e))) (ast_rules ast) ++ map (fun e => (snd e, [fst e])) names;
  ow_used : forall x n, In (x, n) names -> terminal x /\ exists A b, In (A, b) (ast_rules ast) /\ In x b;
  ow_tokens : NoDup (map fst names);
  ow_names : NoDup (map snd names);
  ow_start : exists s s', find ap_start ast = Some s /\ find ap_start ast' = Some s' /\ ap_name s' = ap_name s /\
    forall n, In n (map snd names) -> ~ In n (aug_name (ap_name s) :: ap_name s :: ast_names ast) }.

(** Every token that gets no rule of its own is written at one place only. *)
Definition others_once (names : list (sym * str)) (g : grammar) : Prop :=
  forall p d p' d' x, terminal x -> ~ In x (map fst names) -> sym_at g p d x -> sym_at g p' d' x -> (p, d) = (p', d').

(** What building the item sets needs of the new grammar, said of the old one: every name that can be met has a rule, and
    behind every name and every token that becomes one stands nothing left-recursive or without rules at its beginning. *)
Definition own_computable (names : list (sym * str)) (g : grammar) : Prop :=
  forall p pr d x, reachable g p -> nth_error (g_prods g) p = Some pr -> nth_error (p_syms pr) d = Some x ->
    (forall B, x = SNon B -> has_rule g B) /\
    ((exists B, x = SNon B) \/ In x (map fst names) ->
     forall y, nth_error (p_syms pr) (S d) = Some y -> forall A b, derives g [y] (SNon A :: b) -> has_rule g A /\ ~ left_recursive g A).

(** The reductions of the new grammar without those of the new rules, whose numbers are the last ones. *)
Definition old_rules (g : grammar) (ps : list nat) : list nat := filter (fun p => p <? length (g_prods g)) ps.
