"""Wrong programs: one edit of a model definition each, as a bug in the code would make it.
(id, file, definition, property whose claim it breaks, the claim, edits)."""
MUTANTS = []
def M(id, file, definition, prop, claim, *edits):
    MUTANTS.append(dict(id=id, file=file, definition=definition, prop=prop, claim=claim, edits=[tuple(e) for e in edits]))

# --- nfa.rs
M('nfa-star-no-loop', 'Nfa.v', 'rep_loops', 'C01', 'e* matches two repetitions of e',
  ('match k with OneOrMore | ZeroOrMore => true | _ => false end.', 'match k with OneOrMore => true | _ => false end.'))
M('nfa-plus-skips', 'Nfa.v', 'rep_skips', 'C01', 'e+ does not match the empty string',
  ('match k with ZeroOrOne | ZeroOrMore => true | _ => false end.', 'match k with ZeroOrOne | ZeroOrMore | OneOrMore => true | _ => false end.'))
M('nfa-literal-empty-range', 'Nfa.v', 'compile', 'C01', 'a literal character matches itself',
  ('| HLit c => compile_match n (c, (c + 1)%N) accept', '| HLit c => compile_match n (c, c) accept'))
M('nfa-class-exclusive', 'Nfa.v', 'compile', 'C01', 'the last character of a class range matches',
  ('map (fun r => (fst r, (snd r + 1)%N)) ranges', 'map (fun r => (fst r, snd r)) ranges'))
M('nfa-alt-first-only', 'Nfa.v', 'compile', 'C01', 'every alternative of an alternation matches',
  ('let* n3 := push_targets n2 i_idx targets in\n      Ok (n3, Some i_idx)\n  end.', 'let* n3 := push_targets n2 i_idx (firstn 1 targets) in\n      Ok (n3, Some i_idx)\n  end.'))
M('nfa-loop-edge-late', 'Nfa.v', 'compile', 'C01', 'the loop edge of a repetition is followed (edges of a state are contiguous)',
  ("""      let* n3 := push_edge_if (rep_loops k) n2 s_out s_in in
      let i := length (states n3) in
      let* n4 := push_edge (push_state n3) i None s_in in
      let* n5 := push_edge_if (rep_skips k) n4 i accept in
      Ok (n5, Some i)""",
   """      let i := length (states n2) in
      let* n4 := push_edge (push_state n2) i None s_in in
      let* n5 := push_edge_if (rep_skips k) n4 i accept in
      let* n6 := push_edge_if (rep_loops k) n5 s_out s_in in
      Ok (n6, Some i)"""))
M('nfa-first-edge-overwritten', 'Nfa.v', 'push_edge', 'C01', 'all edges of a state are found',
  ("| Some _ => st\n", "| Some _ => State (Some (length (edges n))) (is_accept st)\n"))
M('nfa-accept-all', 'Nfa.v', 'has_accepting_states', 'C01', 'one accepting state in the final set is enough',
  ('| _ => existsb (fun s => set_mem s accepting) final', '| _ => forallb (fun s => set_mem s accepting) final'))
M('nfa-closure-no-visited', 'Nfa.v', 'push_eps', 'C01', 'the epsilon closure terminates on loops',
  ('| None => if set_mem (e_to e) ret then push_eps es\' ret stack\n                else push_eps es\' ret (e_to e :: stack)',
   '| None => push_eps es\' ret (e_to e :: stack)'))
M('nfa-matches-inclusive', 'Nfa.v', 'matches', 'C01', 'ranges are half open',
  ('(fst m <=? c)%N && (c <? snd m)%N', '(fst m <=? c)%N && (c <=? snd m)%N'))
M('nfa-repetition-range-accepted', 'Nfa.v', 'compile', 'C02', 'counted repetitions are rejected',
  ('  | HRep (RepRange _ _) _ => Panic PTodo\n', ''))
M('nfa-empty-group-ok', 'Nfa.v', 'compile', 'C02', 'an empty expression inside a repetition panics',
  ("      let* s_in := unwrap r in\n", "      let s_in := match r with Some x => x | None => s_out end in\n"))
# --- dfa.rs remove_overlap
M('overlap-mid-lost', 'Overlap.v', 'ar_step', 'C03', 'no covered character is lost',
  ('inl ((mid, S index) :: (max, S index) :: work\'', 'inl ((max, S index) :: work\''))
M('overlap-intersects-one-sided', 'Overlap.v', 'intersects', 'C04', 'outputs of disjoint-or-nested ranges are disjoint',
  ('(matches a (fst b) || matches b (fst a))', 'matches a (fst b)'))
M('overlap-skip-one', 'Overlap.v', 'ar_step', 'C04', 'the parts are compared with all later ranges',
  ('inl ((mid, S index) :: (max, S index) :: work\'', 'inl ((mid, S index) :: (max, S (S index)) :: work\''))
M('overlap-max-from-start', 'Overlap.v', 'max_part', 'C03', 'no character outside the inputs is added',
  ('Definition max_part (r o : rng) : rng := (N.min (snd r) (snd o), N.max (snd r) (snd o)).',
   'Definition max_part (r o : rng) : rng := (N.min (snd r) (snd o), N.max (snd r) (snd o) + 1).'))
M('overlap-keeps-empty', 'Overlap.v', 'remove_overlap', 'C03', 'no empty range is returned',
  ('Ok (filter (fun r => negb (rng_empty r)) v).', 'Ok v.'))
# --- dfa.rs
M('dfa-closure-one-level', 'Dfa.v', 'dclo_push', 'C06', 'the closure follows chains of epsilon edges',
  ('(set_insert (e_to e) set) (e_to e :: stack)', '(set_insert (e_to e) set) stack'))
M('dfa-move-start-only', 'Dfa.v', 'move_set', 'C06', 'an edge is followed only when the whole label is inside it',
  ('else Ok (if matches l (snd label - 1)%N then set_insert (e_to e) ret else ret)', 'else Ok (set_insert (e_to e) ret)'))
M('dfa-states-not-shared', 'Dfa.v', 'build_label', 'C05', 'the construction terminates',
  ('match find_index (eqb u) (b_states st) with', 'match find_index (fun _ => false) (b_states st) with'))
M('dfa-first-edge-unset', 'Dfa.v', 'build_label', 'C06', 'all edges of a state are found',
  ('| Some _ => b_first st\n', '| Some _ => update_nth t_idx (fun _ => Some (length (b_edges st))) (b_first st)\n'))
M('dfa-dead-state-stops', 'Dfa.v', 'sim_loop', 'C08', 'a state without edges ends the run (instead of skipping the rest)',
  ("| None => sim_loop d s eaten w'\n", "| None => Ok (s, eaten)\n"))
M('dfa-test-chars', 'Dfa.v', 'd_test', 'C07', 'the eaten count is compared with the number of bytes',
  ('eaten =? utf8_len w', 'eaten =? length w'))
M('dfa-accepting-reversed', 'Dfa.v', 'd_accepting_states', 'C10', 'accepting states are listed in ascending order',
  ('Some v => v ++ [s] end', 'Some v => s :: v end'))
M('dfa-accepting-all', 'Dfa.v', 'dfa_state_is_accepting', 'C41', 'a state is accepting when one of its NFA states is',
  ('| Some set => existsb (fun x => set_mem x (d_accepting d)) set', '| Some set => forallb (fun x => set_mem x (d_accepting d)) set'))
M('dfa-start-unmapped', 'Dfa.v', 'build', 'C08', 'the set of a state is recorded (the start state is not)',
  ('map_insert new_idx u (b_map st))', 'b_map st)'))
M('dfa-start-recorded', 'Dfa.v', 'build', 'C08', 'the start state is never reported as accepting',
  ('let st0 := BState [] [false] [set_of_list c0] [] [] in', 'let st0 := BState [] [false] [set_of_list c0] [(0, set_of_list c0)] [] in'))
# --- lex.rs
M('lex-template-offset', 'Lex.v', 'lex_nfa_template', 'C09', 'the template points to the start of each NFA',
  ('lex_template_loop (NFA [] [State None false]) 1 lens.', 'lex_template_loop (NFA [] [State None false]) 0 lens.'))
M('lex-shift-edges', 'Lex.v', 'shift_nfa', 'C09', 'shifted states keep their edges',
  ('option_map (fun k => k + eo) (first_edge s)', 'option_map (fun k => k + so) (first_edge s)'))
M('lex-token-unshifted', 'Lex.v', 'from_tokens_loop', 'C10', 'accepting states are registered under their shifted number',
  ('map_insert (a + so) tok m', 'map_insert a tok m'))
M('lex-restart-at-last', 'Lex.v', 'lex_step', 'C11', 'lexing advances',
  ('0 (k + 1) (k + 1) None)', '0 k k None)'))
M('lex-restart-at-forward', 'Lex.v', 'lex_step', 'C13', 'lexing resumes right after the token',
  ('0 (k + 1) (k + 1) None)', '0 (ls_forward s) (ls_forward s) None)'))
M('lex-whitespace-anywhere', 'Lex.v', 'lex_step', 'C13', 'whitespace is skipped only between tokens',
  ('if is_whitespace c && (ls_forward s =? ls_begin s) then', 'if is_whitespace c then'))
M('lex-shortest', 'Lex.v', 'lex_step', 'C09', 'the longest match wins',
  ('(Some (ls_forward s, a)))', '(match ls_last s with Some x => Some x | None => Some (ls_forward s, a) end))'))
M('lex-value-short', 'Lex.v', 'make_tok', 'C14', 'the value is the matched text',
  ('byte_slice input start (end_ + 1)', 'byte_slice input start end_'))
M('lex-no-flush', 'Lex.v', 'lex_finish', 'C15', 'the last token is emitted',
  ('let* t := make_tok L input (ls_begin s) k a in Ok (ls_tokens s ++ [t])', 'Ok (ls_tokens s)'))
M('lex-tab-whitespace', 'Lex.v', 'is_whitespace', 'C12', 'only newline and space are skipped',
  ('(c =? 10)%N || (c =? 32)%N', '(c =? 10)%N || (c =? 32)%N || (c =? 9)%N'))
M('lex-no-newline', 'Lex.v', 'is_whitespace', 'C15', 'newlines are skipped',
  ('(c =? 10)%N || (c =? 32)%N', '(c =? 32)%N'))
M('lex-last-definition', 'Lex.v', 'lex_step', 'C10', 'ties go to the first definition',
  ('| Some (a :: _) =>\n                  inl (LState (ls_tokens s) (de_to e) (ls_begin s) (S (ls_forward s))\n                              (Some (ls_forward s, a)))',
   '| Some (a :: l) =>\n                  inl (LState (ls_tokens s) (de_to e) (ls_begin s) (S (ls_forward s))\n                              (Some (ls_forward s, last l a)))'))
M('lex-value-always', 'Lex.v', 'make_tok', 'C14', 'a token without value carries none',
  ('else Ok (Token (td_name td) None)', 'else let* v := byte_slice input start (end_ + 1) in Ok (Token (td_name td) (Some v))'))
# --- parser/mod.rs, ast.rs
M('grammar-regex-as-literal', 'Grammar.v', 'lower', 'C19', 'symbols keep their kind',
  ('| IReg r => SReg r', '| IReg r => SStr r'))
M('grammar-eof-last', 'Grammar.v', 'make_tokens', 'C18', 'EOF has index 0',
  ('SEof :: fold_left (fun s p => set_extend (p_syms p) s) prods [].', 'fold_left (fun s p => set_extend (p_syms p) s) prods [] ++ [SEof].'))
M('grammar-bodies-reversed', 'Grammar.v', 'add_body', 'C19', 'production indices are listed in order',
  ('Some l => l ++ [idx] end) names', 'Some l => idx :: l end) names'))
M('grammar-second-body-lost', 'Grammar.v', 'add_body', 'C19', 'every body is found by name',
  ('Some l => l ++ [idx] end) names', 'Some l => l end) names'))
M('grammar-no-apostrophe', 'Grammar.v', 'aug_name', 'C19', 'the augmented start name is fresh',
  ('Definition aug_name (s : str) : str := s ++ [39%N].', 'Definition aug_name (s : str) : str := s.'))
M('grammar-tokens-dup', 'Grammar.v', 'make_tokens', 'C18', 'the token table has no duplicates',
  ('SEof :: fold_left (fun s p => set_extend (p_syms p) s) prods [].', 'SEof :: flat_map p_syms prods.'))
M('grammar-last-start', 'Grammar.v', 'grammar_from_ast', 'C19', 'the first production marked start is the start',
  ('match find ap_start ast with', 'match find ap_start (rev ast) with'))
# --- first.rs
M('first-only-first-symbol', 'First.v', 'first_loop', 'C20', 'FIRST continues past nullable symbols',
  ("if had then first_loop fuel g set'' true l' else Ok (set'', false)", "Ok (set'', had)"))
M('first-body-stops', 'First.v', 'first_body', 'C20', 'FIRST of a body continues past nullable symbols',
  ("if b then first_body rec set' true l' else Ok (set', added)", "Ok (set', added || b)"))
M('first-epsilon-kept', 'First.v', 'first_loop', 'C20', 'epsilon is not in FIRST of a sequence with a non-nullable symbol',
  ("let set'' := set_remove SEps set' in", "let set'' := set' in"))
M('first-empty', 'First.v', 'first_with', 'C20', 'FIRST of the empty sequence is epsilon',
  ('first_loop fuel g [] true l', 'first_loop fuel g [] false l'))
M('first-one-production', 'First.v', 'first_prods', 'C20', 'all productions of a name count',
  ("      first_prods rec set' added' ps'\n", "      match ps' with [] => first_prods rec set' added' ps' | _ => Ok (set', added') end\n"))
# --- item.rs
M('closure-before-dot', 'Item.v', 'additions_la', 'C22', 'lookaheads come from what follows the dotted symbol',
  ('first g (item_iter g (increment it) ++ [a])', 'first g (item_iter g it ++ [a])'))
M('closure-no-lookahead', 'Item.v', 'additions_la', 'C22', 'the inherited lookahead is passed on',
  ('first g (item_iter g (increment it) ++ [a])', 'first g (item_iter g (increment it))'))
M('closure-one-round', 'Item.v', 'closure_step', 'C22', 'the closure is closed',
  ("if added then inl s' else inr (Ok s')", "inr (Ok s')"))
M('closure-first-production', 'Item.v', 'additions_item', 'C22', 'all productions of the dotted name are added',
  ('las in Ok (concat l)) ps in', 'las in Ok (concat l)) (firstn 1 ps) in'))
M('closure-new-items-only', 'Item.v', 'add_pair', 'C22', 'a new lookahead of a known item is propagated',
  ('if is_mem s (fst p) (snd p) then added else true', 'match map_get (fst p) s with Some _ => added | None => true end'))
M('goto-no-advance', 'Item.v', 'goto_kernel_step', 'C23', 'goto moves the dot',
  ('is_insert j (increment it) a) las j)', 'is_insert j it a) las j)'))
M('goto-no-closure', 'Item.v', 'goto', 'C23', 'goto is closed',
  ("  closure g j.\n", "  Ok j.\n"))
M('goto-one-lookahead', 'Item.v', 'goto_kernel_step', 'C23', 'goto keeps all lookaheads',
  ('is_insert j (increment it) a) las j)', 'is_insert j (increment it) a) (firstn 1 las) j)'))
M('items-empty-set', 'Item.v', 'items_new_of', 'C24', 'the empty set is no state',
  ('(match j with [] => false | _ => true end) && negb (is_contains c j)', 'negb (is_contains c j)'))
M('items-one-round', 'Item.v', 'items_step', 'C24', 'the collection is closed under goto',
  ('| Ok temp => inl (fold_left index_set_insert (rev temp) c)', '| Ok temp => inr (Ok (fold_left index_set_insert (rev temp) c))'))
M('items-duplicates', 'Item.v', 'index_set_insert', 'C24', 'the collection has no duplicates',
  ('if is_contains sets s then sets else sets ++ [s].', 'sets ++ [s].'))
M('union-own-only', 'Item.v', 'union', 'C25', 'merging keeps all lookaheads',
  ('Ok (fst e, set_extend las (snd e))', 'Ok (fst e, snd e)'))
M('union-intersect', 'Item.v', 'union', 'C25', 'merging keeps all lookaheads',
  ('Ok (fst e, set_extend las (snd e))', 'Ok (fst e, las)'))
# --- table.rs
M('merge-map-off', 'Table.v', 'merge_group', 'C25', 'the map sends an LR state to its merged state',
  ('map_insert i (length (ms_result st)) m', 'map_insert i (S (length (ms_result st))) m'))
M('merge-never', 'Table.v', 'group_push', 'C25', 'states with the same core are merged',
  ('if (h =? h\')%N then (h\', is ++ [i]) :: l\' else', 'if (h =? h\' + 1)%N then (h\', is ++ [i]) :: l\' else'))
M('table-no-accept', 'Table.v', 'reduce_entry', 'C30', 'the completed start production accepts',
  ('if (la =? EOF_IDX) && (fst it =? 0) then action_put t i EOF_IDX Accept\n  else action_put', 'action_put'))
M('table-accept-any-eof', 'Table.v', 'reduce_entry', 'C26', 'only the start production accepts',
  ('if (la =? EOF_IDX) && (fst it =? 0) then', 'if (la =? EOF_IDX) then'))
M('table-last-wins', 'Table.v', 'action_put', 'C26', 'conflicts are not resolved silently',
  ('| Some _ => Panic PConflict', '| Some _ => Ok (tbl_insert t i k a)'))
M('table-first-wins', 'Table.v', 'action_put', 'C26', 'conflicts are not resolved silently',
  ('| Some _ => Panic PConflict', '| Some _ => Ok t'))
M('table-reduce-everywhere', 'Table.v', 'action_item', 'C26', 'reductions only on the lookaheads of the item',
  ('| None => foldM (reduce_entry i it) las t', '| None => foldM (reduce_entry i it) (seq 0 (length (g_tokens g))) t'))
M('table-goto-lr-index', 'Table.v', 'goto_entry', 'C26', 'goto entries are indices of merged states',
  ('| Some v => Ok (tbl_insert t i (snd nt) v)\n              end', '| Some v => Ok (tbl_insert t i (snd nt) k)\n              end'))
M('table-shift-lr-index', 'Table.v', 'compute_goto', 'C26', 'shift targets are indices of merged states',
  ('| Some k => map_get k m\n', '| Some k => Some k\n'))
M('table-no-fallback', 'Table.v', 'compute_goto', 'C28', 'a transition that is a merged state itself is found',
  ('| None => is_index lalr j\n', '| None => None\n'))
M('table-goto-unmerged', 'Table.v', 'goto_entry', 'C28', 'a transition that is a merged state itself is found',
  ("""  | None => match is_index lalr j with
            | Some v => Ok (tbl_insert t i (snd nt) v)
            | None => Ok t
            end""", '  | None => Ok t'))
# --- lalr.rs
M('parse-pop-one-less', 'Parse.v', 'parse_step', 'C29', 'a reduction pops the whole body',
  ('let st := skipn (length (p_syms pr)) (ps_stack s) in', 'let st := skipn (pred (length (p_syms pr))) (ps_stack s) in'))
M('parse-no-advance', 'Parse.v', 'next_token', 'C29', 'a shift consumes the token',
  ('nth_error tokens (S i)', 'nth_error tokens i'))
M('parse-accept-on-missing', 'Parse.v', 'parse_step', 'C29', 'only sentences are accepted',
  ('| None => inr (Panic PInvalidToken)', '| None => inr (Ok (ps_trace s))'))
M('parse-trace-reversed', 'Parse.v', 'parse_step', 'C29', 'the reductions are a rightmost derivation in reverse',
  ('(ps_trace s ++ [p])', '(p :: ps_trace s)'))
M('parse-goto-top', 'Parse.v', 'parse_step', 'C30', 'goto is taken from the uncovered state',
  ('match tbl_get (t_goto t) top\' (p_name pr) with', 'match tbl_get (t_goto t) top (p_name pr) with'))
# --- lexer of a grammar
M('lexgrammar-regex-literal', 'LexGrammar.v', 'token_def_with_regex', 'C16', 'a regex token is matched as a regex',
  ('| Some h => Ok (Some (TokenDef r true (Some i), h))', '| Some h => Ok (Some (TokenDef r true (Some i), lit_hir r))'))
M('lexgrammar-index-dense', 'LexGrammar.v', 'grammar_tokens_from', 'C16', 'tokens carry their index in the token table',
  ('let* r := grammar_tokens_from (S i) l\' in', 'let* r := grammar_tokens_from (match o with Some _ => S i | None => i end) l\' in'))
M('lexgrammar-no-eof', 'LexGrammar.v', 'convert_tokens', 'C16', 'EOF is appended',
  ('Ok (r ++ [(Token eof_name None, 0)]).', 'Ok r.'))
M('lexgrammar-first-def', 'LexGrammar.v', 'def_map', 'C16', 'a later definition with the same name replaces an earlier one',
  ('map_insert (td_name (snd e)) (snd e) m) (lx_tokens L) [].', 'match map_get (td_name (snd e)) m with Some _ => m | None => map_insert (td_name (snd e)) (snd e) m end) (lx_tokens L) [].'))
M('lexgrammar-case-fold', 'LexGrammar.v', 'lit_hir', 'C17', 'a literal matches exactly its text',
  ('  | _ => HConcat (map HLit s)', '  | _ => HConcat (map HLit (rev s))'))
# --- support.rs, option_usize.rs
M('support-strip-one', 'Support.v', 'strip', 'C45', 'both quotes are removed',
  ('Ok (firstn (length s - 2) (skipn 1 s)).', 'Ok (firstn (length s - 1) (skipn 1 s)).'))
M('support-regex-limit', 'Support.v', 'alloc_regex', 'C45', 'a one-character regex keeps its character',
  ('if byte_len s <? 3 then', 'if byte_len s <=? 3 then'))
M('support-compare-eq', 'Support.v', 'isym_compare', 'C48', 'the order of equal unnamed symbols (a bug of the code)',
  ('None, None => Lt end', 'None, None => Eq end'))
M('support-compare-names-ignored', 'Support.v', 'isym_compare', 'C48', 'symbols with different names are ordered',
  ('Some a, Some b => cmp a b | Some _, None', 'Some a, Some b => Eq | Some _, None'))
M('ousize-zero-none', 'OptionUsize.v', 'ou_unwrap_or', 'C35', 'index 0 is a value',
  ('if ou_word o =? usize_max then d else ou_word o.', 'if ou_word o =? 0 then d else ou_word o.'))
M('ousize-map-none', 'OptionUsize.v', 'ou_map', 'C35', 'map of none is none',
  ('Definition ou_map {A} (o : ousize) (f : N -> option A) : option A :=\n  if ou_word o =? usize_max then None else f (ou_word o).', 'Definition ou_map {A} (o : ousize) (f : N -> option A) : option A :=\n  f (ou_word o).'))
# --- lex_gen.rs
M('lexgen-pred-swapped', 'LexGen.v', 'gen_arithmetic', 'C40', 'PredTable is the inverse of SuccTable',
  ('tx "    " ++ decn (i + 1) ++ tx ": " ++ decn i ++ tx ";', 'tx "    " ++ decn i ++ tx ": " ++ decn (i + 1) ++ tx ";'))
M('lexgen-succ-short', 'LexGen.v', 'gen_arithmetic', 'C40', 'every number below the size has a successor',
  ('tx "    " ++ decn i ++ tx ": " ++ decn (i + 1) ++ tx ";\n") (seq 0 max_nums) ++', 'tx "    " ++ decn i ++ tx ": " ++ decn (i + 1) ++ tx ";\n") (seq 1 max_nums) ++'))
M('lexgen-label-swapped', 'LexGen.v', 'label_text', 'C41', 'labels have from and to in place',
  ('tx "{ from: " ++ dec (fst m) ++ tx ", to: " ++ dec (snd m)', 'tx "{ from: " ++ dec (snd m) ++ tx ", to: " ++ dec (fst m)'))
M('lexgen-to-reversed', 'LexGen.v', 'state_text', 'C41', 'targets and labels line up',
  ('map (fun x => decn (fst x)) (ts_labels s)', 'map (fun x => decn (fst x)) (rev (ts_labels s))'))
M('lexgen-d2n-first', 'LexGen.v', 'nfa_set_text', 'C41', 'the NFA set of a state is complete',
  ('(map decn set) ++ tx " ]"', '(map decn (firstn 1 set)) ++ tx " ]"'))
M('lexgen-accepting-negated', 'LexGen.v', 'state_text', 'C41', 'accepting states are marked',
  ('dec_bool (ts_accepting s)', 'dec_bool (negb (ts_accepting s))'))
M('lexgen-has-value', 'LexGen.v', 'token_def_text', 'C41', 'hasValue is that of the definition',
  ('dec_bool (snd (snd e))', 'dec_bool true'))
M('lexgen-no-space', 'LexGen.v', 'generate_chars', 'C49', 'the space is in the table',
  ('(nrange (fst r) (snd r + 1))) dot ++ [32%N] in', '(nrange (fst r) (snd r))) dot ++ [32%N] in'))
M('lexgen-no-escape', 'LexGen.v', 'char_escape', 'C49', 'a backslash is escaped',
  ('else if (c =? 92)%N then [92; 92]%N else', 'else'))
# --- ts/util.ts
M('util-gt-equal', 'TsUtil.v', 'Gt', 'C44', 'a number is not greater than itself',
  ('Definition Gt (A B : option nat) : option bool :=\n    match A with None => None | _ => if extends A B then Some false', 'Definition Gt (A B : option nat) : option bool :=\n    match A with None => None | _ => if extends A B then Some true'))
M('util-sub-succ', 'TsUtil.v', 'Sub', 'C44', 'Sub subtracts',
  ('SubLit (Pred A) b\'', 'SubLit (Succ A) b\''))
M('util-pop-reversed', 'TsUtil.v', 'PopNStackWithValue', 'C44', 'popped values are in bottom to top order',
  ('n\' (head :: ret)', 'n\' (ret ++ [head])'))
M('util-cut-reversed', 'TsUtil.v', 'CutString', 'C44', 'Substring keeps the order',
  ('(ret ++ [char]) len (Succ i)', '(char :: ret) len (Succ i)'))
M('util-substring-end', 'TsUtil.v', 'SubstringImpl', 'C44', 'the end of a substring is an index, not a length',
  ('SubstringImpl rest start (Pred end_) (Succ iStart)', 'SubstringImpl rest start end_ (Succ iStart)'))
M('util-ws-tab', 'TsUtil.v', 'IsWhitespace', 'C42', 'the type-level lexer skips what the Rust lexer skips',
  ('(c =? 32)%N || (c =? 10)%N', '(c =? 32)%N || (c =? 10)%N || (c =? 9)%N'))
# --- ts/lex.ts
M('tslex-gt', 'TsLex.v', 'RangeContains', 'C42', 'ranges contain their start',
  ('may_be_true (Gte size', 'may_be_true (Gt size'))
M('tslex-no-eof', 'TsLex.v', 'x_finish', 'C42', 'EOF ends the tokens',
  ('| None => LexToks (Reverse (EOF :: x_tokens s))', '| None => LexToks (Reverse (x_tokens s))'))
M('tslex-first-accept', 'TsLex.v', 'x_step', 'C42', 'the longest match wins',
  ('(if tl_accepting st\' then Some (x_forward s, j) else x_last s)', '(match x_last s with Some x => Some x | None => if tl_accepting st\' then Some (x_forward s, j) else None end)'))
M('tslex-order', 'TsLex.v', 'x_finish', 'C42', 'tokens are in order',
  ('| Some (k, q) => LexToks (Reverse (EOF :: TokenDefToToken q (x_begin s) k :: x_tokens s))', '| Some (k, q) => LexToks (EOF :: TokenDefToToken q (x_begin s) k :: x_tokens s)'))
# --- parse_gen.rs
M('parsegen-shift-reduce', 'ParseGen.v', 'action_text', 'C47', 'shift and reduce entries are told apart',
  ('Reduce r => tx "reduce: " ++ decn r', 'Reduce r => tx "shift: " ++ decn r'))
M('parsegen-kind-off', 'ParseGen.v', 'kind_text', 'C47', 'token kinds map to token indices',
  ('tx "\': " ++ decn (fst x)', 'tx "\': " ++ decn (S (fst x))'))
M('parsegen-no-eof-kind', 'ParseGen.v', 'kind_text', 'C47', 'EOF has an index',
  ('| SEof => entry (tx "EOF")\n  | SNon _ | SEps => []', '| SEof => []\n  | SNon _ | SEps => []'))
M('parsegen-goto-value', 'ParseGen.v', 'goto_table_text', 'C47', 'goto entries are states',
  ('" ++ fst e ++ tx ": " ++ decn (snd e) ++ tx "', '" ++ fst e ++ tx ": " ++ decn (S (snd e)) ++ tx "'))
M('parsegen-production-tokens', 'ParseGen.v', 'production_text', 'C47', 'productions list their tokens in order',
  ('flat_map (fun i => decn i ++ tx ",") idxs', 'flat_map (fun i => decn i ++ tx ",") (rev idxs)'))
M('parsegen-action-index', 'ParseGen.v', 'gactions', 'C37', 'Action i belongs to production i',
  ('(1 + fst ib)', '(fst ib)'))
M('parsegen-pop-extra', 'ParseGen.v', 'pop_amount', 'C37', 'an action pops as many symbols as its body has',
  (': nat := length (ga_inputs a).', ': nat := S (length (ga_inputs a)).'))
M('parsegen-named-only', 'ParseGen.v', 'popped_pattern', 'C37', 'names are bound to the symbols they name',
  ('| _ :: l => tx "infer var" ++ decn i ++ tx "," ++ popped_pattern (S i) l', '| _ :: l => popped_pattern (S i) l'))
M('parsegen-call-kind', 'ParseGen.v', 'call_impl', 'C37', 'the pushed symbol has the name of the production',
  ('tx "...newStack]"', 'tx "...symbolStack]"'))
M('parsegen-emit-index', 'ParseGen.v', 'emit_text', 'C37', 'EmitProduction dispatches to the action with its index',
  ('actions.Action" ++ decn (ga_idx a) ++ tx "<symbolStack> :"', 'actions.Action" ++ decn (pred (ga_idx a)) ++ tx "<symbolStack> :"'))
M('parsegen-position-zero', 'ParseGen.v', 'validate_params', 'C38', 'positions count from 1',
  ('all_checks (ga_idx a) 1 (ga_inputs a)', 'all_checks (ga_idx a) 0 (ga_inputs a)'))
M('parsegen-errors-fixed', 'ParseGen.v', 'validate_params', 'C38', 'the code blames the wrong symbol (a bug of the code)',
  ('flat_map (fun e => tx " : " ++ e) es)', 'flat_map (fun e => tx " : " ++ e) (rev es))'))
M('parsegen-extends-fixed', 'ParseGen.v', 'checks', 'C39', 'the code glues extends and string (a bug of the code)',
  (' extendsstring"', ' extends string"'))
M('parsegen-literal-constraint', 'ParseGen.v', 'checks', 'C39', 'a named literal is constrained to its text',
  ('tx "__" ++ n ++ tx "[\'token\'][\'value\'] extends infer " ++ n ++ tx " extends \'" ++ s ++ tx "\'"]', 'tx "__" ++ n ++ tx "[\'token\'][\'value\'] extends infer " ++ n ++ tx " extends \'" ++ n ++ tx "\'"]'))
M('parsegen-type-of', 'ParseGen.v', 'variants', 'C39', 'the type of a symbol is the one written last for its name',
  ('map_insert (ap_name p) (ap_ts p) m) ast [].', 'match map_get (ap_name p) m with Some _ => m | None => map_insert (ap_name p) (ap_ts p) m end) ast [].'))

# --- parse.ts
M('tsparse-depth-zero', 'TsParse.v', 'Parse', 'C43', 'the compiler allows 50 steps',
  ('ParseImpl 50 toks', 'ParseImpl 5 toks'))
M('tsparse-next-same', 'TsParse.v', 'NextToken', 'C43', 'a shift moves to the next token',
  ('Some a\' => NTok a\' i\' | None', 'Some a\' => NTok a\' i | None'))
M('tsparse-next-past-end', 'TsParse.v', 'NextToken', 'C43', 'past the last token the parser stays on it',
  ('else NTok a i\n', 'else NMessage\n'))
M('tsparse-shift-no-push', 'TsParse.v', 'ParseImpl', 'C43', 'a shift pushes its state',
  ('again (q :: stack) i\' a\'', 'again (q :: tl stack) i\' a\''))
M('tsparse-reduce-keeps-stack', 'TsParse.v', 'ParseImpl', 'C43', 'a reduction pops the body',
  ('PopNStack size stack (length tokens)', 'PopNStack size stack (pred (length tokens))'))
M('tsparse-goto-from-top', 'TsParse.v', 'ParseImpl', 'C43', 'goto is looked up in the state below the body',
  ('match GetGoto top\' name with', 'match GetGoto top name with'))
M('tsparse-emit-before', 'TsParse.v', 'ParseImpl', 'C50', 'the action of the production reduced by is run',
  ('match emit rule symbolStack with', 'match emit (N.succ rule) symbolStack with'))
M('tsparse-indices-reversed', 'TsParse.v', 'TokenIndices', 'C43', 'tokens are parsed from left to right',
  ('IxNums l => IxNums (Reverse l)', 'IxNums l => IxNums l'))
M('tsparse-emit-index', 'TsParse.v', 'EmitProduction', 'C50', 'action k belongs to production k',
  ('    | S k\' =>\n        match nth_error', '    | S _ => let k\' := N.to_nat k in\n        match nth_error'))
M('tsparse-emit-order', 'TsParse.v', 'EmitProduction', 'C50', 'actions get the symbols in the order of the body',
  ('Some (SymNon name (code k popped) :: rest)', 'Some (SymNon name (code k (rev popped)) :: rest)'))
M('tsparse-emit-whole-stack', 'TsParse.v', 'EmitProduction', 'C50', 'the symbols of the body leave the stack',
  ('Some (SymNon name (code k popped) :: rest)', 'Some (SymNon name (code k popped) :: stack)'))
M('tsparse-accept-empty', 'TsParse.v', 'ParseImpl', 'C50', 'an accepted text gives its value',
  ('| Some TAccept => PStack symbolStack', '| Some TAccept => PStack []'))
# --- grammar files
M('file-code-nongreedy', 'GrammarFile.v', 'code_end', 'C53', 'code extends to the last parenthesis of the line',
  ('else match code_end s\' with Some n => Some (S n) | None => if (c =? 41)%N then Some 1 else None end', 'else if (c =? 41)%N then Some 1 else match code_end s\' with Some n => Some (S n) | None => None end'))
M('file-code-newline', 'GrammarFile.v', 'code_end', 'C53', 'code stays within a line',
  ('      if (c =? 10)%N then None\n      else match', '      match'))
M('file-keyword-after', 'GrammarFile.v', 'better', 'C54', 'a literal wins over an identifier of the same length',
  ('if m <=? n then', 'if m <? n then'))
M('file-no-trailing-comma', 'GrammarFile.v', 'parse_bodies', 'C51', 'a trailing comma is allowed',
  ('      | GClose :: r => Ok ([], r)\n      | _ =>\n', '      | _ =>\n'))
M('file-start-lost', 'GrammarFile.v', 'parse_production', 'C51', 'export start marks the start symbol',
  ('parse_rule fuel true r', 'parse_rule fuel false r'))
M('file-export-starts', 'GrammarFile.v', 'parse_production', 'C51', 'export alone does not mark the start symbol',
  ('| GExport :: r => parse_rule fuel false r', '| GExport :: r => parse_rule fuel true r'))
M('file-named-dropped', 'GrammarFile.v', 'parse_named', 'C51', 'a named symbol keeps its name',
  ('Ok (INamed (Some (alloc_str n)) (fst xr), r\')', 'Ok (fst xr, r\')'))
M('file-regex-as-string', 'GrammarFile.v', 'parse_symbol', 'C51', 'r"..." is a regex',
  ('Ok (IReg v, r)', 'Ok (IStr v, r)'))
M('file-code-kept', 'GrammarFile.v', 'parse_body', 'C51', 'the code of a body is what is between its parentheses',
  ('let* v := alloc_ts_code c in Ok (ABody (fst xsr) v, r)', 'Ok (ABody (fst xsr) c, r)'))
M('file-word-no-digit', 'GrammarFile.v', 'word_rest', 'C51', 'names may contain digits',
  ('word_start c || ((48 <=? c) && (c <=? 57))%N', 'word_start c'))
M('file-string-no-escape', 'GrammarFile.v', 'str_end', 'C51', 'a string may contain an escaped quote',
  ('if ((d =? 92) || (d =? 34))%N', 'if (d =? 92)%N'))
M('file-last-production', 'GrammarFile.v', 'parse_program', 'C51', 'all rules of a file are read',
  ('Ok (fst pr :: ps)', 'Ok ps'))
# --- error report
M('report-valid-goto', 'Report.v', 'tbl_valid', 'C56', 'the tokens listed are those of the row of the state',
  ('option_map keys (map_get i t)', 'option_map keys (map_get (pred i) t)'))
M('report-next-pos', 'Report.v', 'report_step', 'C55', 'the position reported is that of the offending token',
  ('Report (ps_i s) (ps_a s)', 'Report (S (ps_i s)) (ps_a s)'))
M('report-state-as-token', 'Report.v', 'report_step', 'C55', 'the token reported is the one at that position',
  ('Report (ps_i s) (ps_a s)', 'Report (ps_i s) top'))
M('report-never', 'Report.v', 'report_step', 'C55', 'a rejected token is reported',
  ('inr (match ps_stack s with\n           | top :: _ => Some', 'inr (match ps_stack s with\n           | top :: _ :: _ :: _ => Some'),
  ('           | [] => None\n', '           | _ => None\n'))

# === second batch: definitions the first one left alone
# --- nfa.rs
M('nfa-state-accepting', 'Nfa.v', 'push_state', 'C01', 'only the final state accepts',
  ('(states n ++ [State None false])', '(states n ++ [State None true])'))
M('nfa-match-epsilon', 'Nfa.v', 'compile_match', 'C01', 'a character is consumed by a character range',
  ("let* n' := push_edge (push_state n) from (Some m) accept in\n  Ok (n', Some from).", "let* n' := push_edge (push_state n) from None accept in\n  Ok (n', Some from)."))
M('nfa-class-last-range', 'Nfa.v', 'compile_ranges', 'C01', 'every range of a class matches',
  ('Ok (n2, t :: ts)\n  end.\n\n(** nfa.rs:161', 'Ok (n2, match ts with [] => [t] | _ => ts end)\n  end.\n\n(** nfa.rs:161'))
M('nfa-empty-start', 'Nfa.v', 'from_regex', 'C01', 'the empty expression matches the empty string only',
  ('(match after_start with Some s => s | None => FINAL_ACCEPT_IDX end)', '(match after_start with Some s => s | None => START_IDX end)'))
M('nfa-edge-iter-all', 'Nfa.v', 'edge_iter', 'C01', 'the edges of a state are its own',
  ('take_while (fun e => e_from e =? s) (skipn k (edges n))', 'skipn k (edges n)'))
M('nfa-move-last-edge', 'Nfa.v', 'move_state', 'C01', 'all states reached on a character are kept',
  ('if matches m c then hs_insert (e_to e) ret else ret', 'if matches m c then [e_to e] else ret'))
M('nfa-closure-drops-source', 'Nfa.v', 'eps_loop', 'C01', 'the closure contains the states it starts from',
  ("let ret' := hs_insert s ret in", "let ret' := match stack' with [] => ret | _ => hs_insert s ret end in"))
M('nfa-insert-duplicates', 'Nfa.v', 'hs_insert', 'C01', 'the set of states has no duplicates',
  ('if set_mem x l then l else l ++ [x].', 'l ++ [x].'))
M('nfa-accepting-not-first', 'Nfa.v', 'accepting_states', 'C01', 'the accepting states are found',
  ('(seq 0 (length (states n))).\n\n(** nfa.rs:351', '(seq 2 (length (states n))).\n\n(** nfa.rs:351'))
# --- dfa.rs
M('overlap-empty-at-one', 'Overlap.v', 'rng_empty', 'C04', 'a range of one character is not empty',
  ('negb (fst r <? snd r)', 'negb (fst r + 1 <? snd r)'))
M('overlap-low-end', 'Overlap.v', 'low_part', 'C04', 'the low part ends where the overlap starts',
  ('Definition low_part (r o : rng) : rng := (N.min (fst r) (fst o), N.max (fst r) (fst o)).', 'Definition low_part (r o : rng) : rng := (N.min (fst r) (fst o), N.max (fst r) (fst o) - 1).'))
M('overlap-mid-start', 'Overlap.v', 'mid_part', 'C04', 'the overlap ends at the smaller end',
  ('Definition mid_part (r o : rng) : rng := (N.max (fst r) (fst o), N.min (snd r) (snd o)).', 'Definition mid_part (r o : rng) : rng := (N.max (fst r) (fst o), N.min (snd r) (snd o) - 1).'))
M('dfa-labels-skip-start', 'Dfa.v', 'nfa_labels', 'C06', 'the alphabet has the labels of all states',
  ('(seq 0 (length (states n))) [].', '(seq 0 (pred (length (states n)))) [].'))
M('dfa-closure-seedless', 'Dfa.v', 'dfa_epsilon_closure', 'C06', 'the closure of a set contains it',
  ('dclo_loop (length (states n)) n set (rev set).', 'dclo_loop (length (states n)) n [] (rev set).'))
M('dfa-one-label', 'Dfa.v', 'build_step', 'C06', 'the transitions on all labels are built',
  ('match foldM (build_label n t_idx) alphabet st1 with', 'match foldM (build_label n t_idx) (tl alphabet) st1 with'))
M('dfa-alphabet-unsplit', 'Dfa.v', 'from_nfa', 'C06', 'the alphabet is split into disjoint ranges',
  ('let* alphabet := remove_overlap (set_of_list labels) in\n  build n alphabet.', 'build n (set_of_list labels).'))
M('dfa-edge-iter-first', 'Dfa.v', 'd_edge_iter', 'C08', 'all edges of a DFA state are followed',
  ('Ok (Some (take_while (fun e => de_from e =? s) (skipn k (d_edges d))))', 'Ok (Some (firstn 1 (skipn k (d_edges d))))'))
M('dfa-simulate-accepting', 'Dfa.v', 'd_simulate', 'C07', 'the simulation answers for every state but the start state',
  ('Ok (if map_mem s (dfa_to_nfa d) then Some eaten else None).', 'Ok (if existsb (Nat.eqb s) (d_accepting d) then Some eaten else None).'))
M('dfa-utf8-three', 'Dfa.v', 'utf8_len1', 'C14', 'a character of the basic plane has at most three bytes',
  ('else if (c <? 65536)%N then 3 else 4', 'else if (c <? 32768)%N then 3 else 4'))
# --- lex.rs
M('lex-template-lens', 'Lex.v', 'lex_template_loop', 'C09', 'the start state reaches every expression',
  ('lex_template_loop this\' (state_offset + len) lens\'', 'lex_template_loop this\' (state_offset + len + 1) lens\''))
M('lex-append-reversed', 'Lex.v', 'append_nfas', 'C09', 'the automata are appended in order',
  ('NFA (edges t ++ edges n) (states t ++ states n)) ns t.', 'NFA (edges t ++ edges n) (states t ++ states n)) (rev ns) t.'))
M('lex-edge-offset', 'Lex.v', 'lex_nfa', 'C09', 'edge indices are shifted by the number of edges before',
  ('from_tokens_loop 1 (length with_nfa) with_nfa []', 'from_tokens_loop 1 1 with_nfa []'))
M('lex-slice-clamped', 'Lex.v', 'byte_slice', 'C14', 'an offset inside a character panics',
  ("                        | None => Panic PSlice\n                        | Some (x, _) => Ok x", "                        | None => Ok r\n                        | Some (x, _) => Ok x"))
M('lex-start-one', 'Lex.v', 'lex', 'C12', 'the first character is read',
  ('(LState [] 0 0 0 None) with', '(LState [] 0 0 1 None) with'))
M('lexgrammar-default-index', 'LexGrammar.v', 'token_with_idx', 'C16', 'every token gets the index of its definition',
  ('| Some d => match td_idx d with None => Panic PUnwrapNone | Some i => Ok (t, i) end', '| Some d => match td_idx d with None => Panic PUnwrapNone | Some i => Ok (t, S i) end'))
# --- parser/mod.rs
M('grammar-sym-order', 'Grammar.v', 'sym_code', 'C17', 'literals are defined before regexes',
  ('| SStr s => (0, s)\n  | SNon s => (1, s)\n  | SReg s => (2, s)', '| SStr s => (2, s)\n  | SNon s => (1, s)\n  | SReg s => (0, s)'))
M('grammar-type-lost', 'Grammar.v', 'from_ast', 'C19', 'a production keeps its action and type',
  ('(Some (ab_fn b)) (Some (ap_ts p)).', '(Some (ap_ts p)) (Some (ab_fn b)).'))
M('grammar-prods-one-body', 'Grammar.v', 'add_prod', 'C19', 'every body becomes a production',
  ('fold_left (add_body p) (ap_bodies p) st.', 'fold_left (add_body p) (rev (ap_bodies p)) st.'))
M('grammar-token-idx-off', 'Grammar.v', 'get_token_idx', 'C18', 'a token is found at its index',
  ('find_index (fun t => eqb t x) (g_tokens g).', 'find_index (fun t => eqb t x) (tl (g_tokens g)).'))
M('grammar-iter-one', 'Grammar.v', 'prod_iter', 'C20', 'all productions of a name are visited',
  ('| Some p => (i, p) :: prod_iter prods l', '| Some p => [(i, p)]'))
M('grammar-unknown-empty', 'Grammar.v', 'production_iter', 'C34', 'an undefined name panics',
  ('  | None => Panic PUnwrapNone\n  | Some idxs => Ok (prod_iter (g_prods g) idxs)', '  | None => Ok []\n  | Some idxs => Ok (prod_iter (g_prods g) idxs)'))
M('grammar-regex-not-terminal', 'Grammar.v', 'is_term', 'C28', 'a regex is a terminal',
  ('match x with SNon _ => false | _ => true end.', 'match x with SNon _ | SReg _ => false | _ => true end.'))
M('grammar-non-terms-skip', 'Grammar.v', 'non_terminals', 'C28', 'the goto table has all non-terminals',
  ('non_terms_from 0 (g_tokens g).', 'tl (non_terms_from 0 (g_tokens g)).'))
M('first-no-epsilon', 'First.v', 'first_sym', 'C20', 'epsilon makes a name nullable',
  ('Ok (set_insert x set, eqb x SEps)', 'Ok (set_insert x set, false)'))
# --- lalr/item.rs and table.rs
M('item-initial-second', 'Item.v', 'initial', 'C24', 'the automaton starts from the augmented production',
  ('[((0, 0), [EOF_IDX])].', '[((1, 0), [EOF_IDX])].'))
M('item-lookahead-replaced', 'Item.v', 'is_insert', 'C22', 'an item collects all lookaheads',
  ('match o with None => [a] | Some las => set_insert a las end) s.', 'match o with None => [a] | Some las => [a] end) s.'))
M('item-mem-any', 'Item.v', 'is_mem', 'C22', 'a new lookahead counts as a change',
  ('match map_get it s with None => false | Some las => set_mem a las end.', 'match map_get it s with None => false | Some las => true end.'))
M('item-increment-two', 'Item.v', 'increment', 'C23', 'goto moves the dot by one symbol',
  ('(fst it, S (snd it)).', '(fst it, S (S (snd it))).'))
M('item-first-set-only', 'Item.v', 'items_new', 'C24', 'the transitions of all sets are followed',
  ('let* l := mapM (items_new_of g c) c in Ok (concat l).', 'let* l := mapM (items_new_of g c) (firstn 3 c) in Ok (concat l).'))
M('table-core-first', 'Table.v', 'core', 'C25', 'only states with the same core are merged',
  ('map fst s.', 'firstn 1 (map fst s).'))
M('table-group-index', 'Table.v', 'group_cores', 'C25', 'the groups hold the indices of the states',
  ('group_cores hash (S i) sets\'', 'group_cores hash i sets\''))
M('table-merge-pair', 'Table.v', 'merge_rest', 'C25', 'all states of a group are merged',
  ("let* s' := union s other in\n      merge_rest sets is' (s', presence')", "let* s' := union s other in\n      Ok (s', presence')"))
M('table-take-twice', 'Table.v', 'take_set', 'C25', 'a state is taken once',
  ('  | Some false => Panic PDropped\n  | Some true =>', '  | Some _ =>'))
M('table-swapped-map', 'Table.v', 'make_lalr_tables', 'C26', 'the goto table is computed from the merged states',
  ('let* got := foldM (goto_state g lalr lr m) (enumerate lalr) [] in', 'let* got := foldM (goto_state g lalr lr m) (enumerate lr) [] in'))
M('table-states-lr', 'Table.v', 'make_tables', 'C26', 'the states listed are the merged ones',
  ('Ok (Tables act got lalr).', 'Ok (Tables act got lr).'))
# --- lalr.rs
M('parse-start-second-token', 'Parse.v', 'parse_impl', 'C29', 'the first token is looked at',
  ('(parse_init a) with', '(parse_init (match tokens with _ :: b :: _ => b | _ => a end)) with'))
M('parse-start-state', 'Parse.v', 'parse_init', 'C29', 'the parser starts in state 0',
  ('PState [0] 0 a [].', 'PState [1] 0 a [].'))
M('lalr-parse-no-eof', 'Lalr.v', 'lalr_parse', 'C36', 'the end of input is passed to the parser',
  ('(map snd conv).', '(removelast (map snd conv)).'))
M('lalr-lexes-twice', 'Lalr.v', 'lalr_parse', 'C36', 'the tokens are passed in order',
  ('(map snd conv).', '(rev (map snd conv)).'))
# --- generated text
M('text-digit-nine', 'Text.v', 'digits', 'C40', 'numbers are printed in decimal',
  ('D9 u => 57%N :: digits u', 'D9 u => 56%N :: digits u'))
M('text-join-trailing', 'Text.v', 'join', 'C41', 'lists are separated, not terminated',
  ('[x] => x | x :: l', '[x] => x ++ sep | x :: l'))
M('lexgen-labels-lost', 'LexGen.v', 'from_lex_state', 'C41', 'the edges of a state are written',
  ('map (fun e => (de_to e, de_label e)) es', 'map (fun e => (de_from e, de_label e)) es'))
M('lexgen-token-per-state', 'LexGen.v', 'lex_ctx_new', 'C41', 'every token some state accepts is written',
  ('existsb (Nat.eqb (fst kv)) set then', 'existsb (Nat.eqb (fst kv)) (firstn 1 set) then'))
M('lexgen-state-count', 'LexGen.v', 'lex_ctx_new', 'C41', 'every state is written',
  ('let* states := mapM (from_lex_state (lx_dfa L)) idxs in', 'let* states := mapM (from_lex_state (lx_dfa L)) (tl idxs) in'))
M('lexgen-states-from-one', 'LexGen.v', 'lex_ctx_text', 'C41', 'the list of states starts with state 0',
  ('tx "State" ++ decn (fst x)) (enum', 'tx "State" ++ decn (S (fst x))) (enum'))
M('lexgen-invisible-space', 'LexGen.v', 'invisible_codepoints', 'C49', 'the space is in the character table',
  ('  9; 11; 12; 13; 127;', '  9; 11; 12; 13; 32; 127;'))
M('lexgen-chartable-swapped', 'LexGen.v', 'chars_to_string', 'C49', 'the character table maps characters to code numbers',
  ('""" ++ char_escape (fst x) ++ tx """: " ++ dec (snd x)', '""" ++ char_escape (snd x + 1) ++ tx """: " ++ dec (snd x)'))
M('parsegen-param-kind', 'ParseGen.v', 'from_input_symbol', 'C39', 'a literal parameter is checked as a literal',
  ('| IStr s => Ok (Some (PStr s))', '| IStr s => Ok (Some (PReg s))'))
M('parsegen-param-dropped', 'ParseGen.v', 'params_of', 'C37', 'the parameters are in the order of the body',
  ('Ok (match o with Some p => p :: ps | None => ps end)', 'Ok (match o with Some p => ps ++ [p] | None => ps end)'))
M('parsegen-bodies-first', 'ParseGen.v', 'all_bodies', 'C37', 'every body has an action',
  ('(ap_bodies p)) ast.', '(firstn 1 (ap_bodies p))) ast.'))
M('parsegen-token-kind', 'ParseGen.v', 'token_text', 'C47', 'a regex token is written as a regex',
  ('| SReg r => entry (tx "regex") r', '| SReg r => entry (tx "strlit") r'))
M('parsegen-tokens-from-one', 'ParseGen.v', 'tokens_text', 'C47', 'the tokens are numbered as in the grammar',
  ('mapM token_text (enum (g_tokens g)) in', 'mapM token_text (enum (tl (g_tokens g))) in'))
M('parsegen-productions-shifted', 'ParseGen.v', 'productions_text', 'C47', 'the productions are numbered as in the grammar',
  ('mapM (production_text g) (enum (g_prods g)) in', 'mapM (production_text g) (enum (tl (g_prods g))) in'))
M('parsegen-action-row', 'ParseGen.v', 'action_table_text', 'C47', 'the rows of the action table are numbered by state',
  ('flat_map (fun row => decn (fst row) ++ tx ": {" ++\n    flat_map (fun e => decn (fst e) ++ tx ": {" ++ action_text', 'flat_map (fun row => decn (S (fst row)) ++ tx ": {" ++\n    flat_map (fun e => decn (fst e) ++ tx ": {" ++ action_text'))
M('parsegen-symbols-type', 'ParseGen.v', 'symbols_text', 'C47', 'the symbol type has the type of every non-terminal',
  ('""", value: actions." ++ ap_name p', '""", value: actions." ++ ap_ts p'))
M('parsegen-defs-order', 'ParseGen.v', 'type_defs_text', 'C47', 'all tables are written',
  ('action_table_text (t_action t) ++ goto_table_text (t_goto t) ++', 'action_table_text (t_action t) ++'))
M('parsegen-checks-position', 'ParseGen.v', 'all_checks', 'C38', 'the errors are in the order of the conditions',
  ('Ok (c ++ cs, e ++ es)', 'Ok (c ++ cs, es ++ e)'))
M('parsegen-condition-swapped', 'ParseGen.v', 'condition', 'C37', 'the then-branch comes before the else-branch',
  ('cond ++ tx " ? " ++ then_ ++ tx " : " ++ otherwise.', 'cond ++ tx " ? " ++ otherwise ++ tx " : " ++ then_.'))
M('parsegen-pop-literal', 'ParseGen.v', 'gaction_text', 'C37', 'an action pops as many symbols as it names',
  ('decn (pop_amount a) ++ tx "> extends', 'decn (ga_idx a) ++ tx "> extends'))
M('parsegen-actions-reversed', 'ParseGen.v', 'actions_text', 'C37', 'all actions are written',
  ('let* acts := mapM gaction_text l in', 'let* acts := mapM gaction_text (tl l) in'))
M('parsegen-imports-late', 'ParseGen.v', 'parse_generate', 'C37', 'the imports are written',
  ('Ok (defs ++ imports_text ++ a).', 'Ok (defs ++ a).'))
# --- grammar files
M('file-space-tab', 'GrammarFile.v', 'spaces', 'C51', 'tabs separate words in a grammar file',
  ('[(9, 13); (32, 32);', '[(10, 13); (32, 32);'))
M('file-keyword-start', 'GrammarFile.v', 'literals', 'C51', 'start is a keyword',
  ('(tx "start", GStart);', '(tx "Start", GStart);'))
M('file-word-upper', 'GrammarFile.v', 'word_start', 'C51', 'a name may start with an upper-case letter',
  ('(65 <=? c) && (c <=? 90)', '(65 <=? c) && (c <? 90)'))
M('file-no-start-token', 'GrammarFile.v', 'file_tokens', 'C51', 'all tokens of a file are read',
  ('Ok (mk (firstn n s) :: ts)', 'Ok (mk (firstn (n - 1) s) :: ts)'))
M('file-syms-last', 'GrammarFile.v', 'parse_syms', 'C51', 'all symbols of a body are read',
  ('Ok (fst xr :: fst xsr, snd xsr)', 'Ok (fst xsr ++ [fst xr], snd xsr)'))
M('file-rule-type', 'GrammarFile.v', 'parse_rule', 'C51', 'the type of a rule is its own',
  ('(fst bsr) start v, snd bsr)', '(fst bsr) start c, snd bsr)'))
# --- option_usize.rs
M('ousize-some-succ', 'OptionUsize.v', 'ou_some', 'C35', 'a value is stored as it is',
  ('Definition ou_some (v : N) : ousize := OU v.', 'Definition ou_some (v : N) : ousize := OU (N.min v (usize_max - 1)).'))
M('ousize-is-some', 'OptionUsize.v', 'ou_is_some', 'C35', 'zero is a value',
  ('negb (ou_word o =? usize_max).', 'negb (ou_word o =? usize_max) && negb (ou_word o =? 0).'))
# --- generated lexer and parser
M('tsparse-gets-prefix', 'TsParse.v', 'GetGoto', 'C43', 'the goto of the state and the name is taken',
  ('Some row => gets name row', 'Some row => match row with e :: _ => Some (snd e) | [] => None end'))
M('tsparse-parse-depth', 'TsParse.v', 'Parse', 'C43', 'the depth limit is fifty',
  ('ParseImpl 50 toks', 'ParseImpl 100 toks'))
M('tsparse-named-literal', 'TsParse.v', 'symbol_holds', 'C43', 'a named literal must be that literal',
  ('SymTok (TTok _ (Some (TLit v))) _, Some l\' => eqb v l\'', 'SymTok (TTok _ (Some (TLit v))) _, Some l\' => true'))
# --- release builds
M('release-stack-cleared', 'Release.v', 'parse_step_release', 'C58', 'the same symbols are popped',
  ('else skipn (length (p_syms pr)) (ps_stack s) in', 'else skipn (pred (length (p_syms pr))) (ps_stack s) in'))
M('release-union-overwrites', 'Release.v', 'union_release', 'C58', 'the same lookaheads are collected',
  ('Ok (fst e, set_extend las (snd e))', 'Ok (fst e, las)'))
M('release-last-kept', 'Release.v', 'strip_release', 'C58', 'the same content is taken',
  ('firstn (length s - 2) (skipn 1 s).', 'firstn (length s - 1) (skipn 1 s).'))
M('release-move-start', 'Release.v', 'move_set_release', 'C58', 'the same automaton is built',
  ('if matches l (fst label) && matches l last then', 'if matches l (fst label) then'))
M('release-counter-small', 'Release.v', 'parse_step_debug', 'C58', 'the counter counts iterations',
  ('inl ((fst s + 1)%N, s\')', 'inl ((fst s + 2)%N, s\')'))
# --- order and names
M('iso-tokens-unsorted', 'Grammar.v', 'make_tokens', 'C59', 'the token table does not depend on the order of the rules',
  ('SEof :: fold_left (fun s p => set_extend (p_syms p) s) prods [].',
   'SEof :: fold_left (fun s p => fold_left (fun s x => if set_mem x s then s else s ++ [x]) (p_syms p) s) prods [].'))
M('iso-conflict-first', 'Table.v', 'action_put', 'C59', 'no conflict is resolved by the order of the rules',
  ('Some _ => Panic PConflict', 'Some _ => Ok t'))
M('iso-conflict-last', 'Table.v', 'action_put', 'C59', 'no conflict is resolved by the order of the rules',
  ('Some _ => Panic PConflict', 'Some _ => Ok (tbl_insert t i k a)'))
M('iso-start-last', 'Grammar.v', 'grammar_from_ast', 'C59', 'the start symbol is the first rule so marked',
  ('match find ap_start ast with', 'match find ap_start (rev ast) with'))
M('iso-first-rule-only', 'First.v', 'first_sym', 'C59', 'the first symbols of all alternatives count',
  ('first_prods (first_sym f g) set false ps', 'first_prods (first_sym f g) set false (firstn 2 ps)'))
M('iso-names-order', 'Grammar.v', 'Ord_sym', 'C59', 'the indices of terminals do not depend on the names of non-terminals',
  ('| SStr s => (0, s)\n  | SNon s => (1, s)', '| SStr s => (0, s)\n  | SNon s => (0, s ++ [0%N])'))
# --- C60
M('viable-union-left', 'Item.v', 'union', 'C60', 'a merged state has the lookaheads of all prefixes it stands for',
  ('| Some las => Ok (fst e, set_extend las (snd e))', '| Some las => Ok (fst e, snd e)'))
M('viable-goto-union', 'Table.v', 'compute_goto', 'C60', 'a transition leads to the state of the longer prefix',
  ('      | Some k => map_get k m\n      end).', '      | Some k => Some k\n      end).'))
M('viable-follow', 'Item.v', 'additions_la', 'C60', 'a lookahead comes from a derivation through the prefix',
  ('let* ts := first g (item_iter g (increment it) ++ [a]) in', 'let* ts0 := first g (item_iter g (increment it) ++ [a]) in let ts := set_insert a ts0 in'))
M('viable-first-of-first', 'First.v', 'first_body', 'C60', 'a lookahead begins what follows',
  ("if b then first_body rec set' true l' else Ok (set', added)", "first_body rec set' true l'"))
# --- definitions without an edit so far
M('grammar-production-shifted', 'Grammar.v', 'get_production', 'C32', 'a reduction is by the production of its number',
  (': option production := nth_error (g_prods g) i.', ': option production := nth_error (g_prods g) (i - 1).'))
M('grammar-token-shifted', 'Grammar.v', 'get_token', 'C18', 'a token index gives the token',
  (': option sym := nth_error (g_tokens g) i.', ': option sym := nth_error (g_tokens g) (S i).'))
M('grammar-name-first-rule', 'Grammar.v', 'production_indices', 'C19', 'all alternatives of a non-terminal are added',
  ('option (list nat) := map_get n (g_names g).', 'option (list nat) := option_map (firstn 1) (map_get n (g_names g)).'))
M('grammar-nonterms-shifted', 'Grammar.v', 'non_terms_from', 'C28', 'goto entries are for the non-terminals',
  ('| Some n => (i, n) :: non_terms_from (S i) l\'', '| Some n => match l\' with [] => [] | _ => (i, n) :: non_terms_from (S i) l\' end'))
M('item-dot-after', 'Item.v', 'dot_token', 'C23', 'the symbol after the dot is the one at the dot',
  ('| Some p => Ok (nth_error (p_syms p) (snd it))', '| Some p => Ok (nth_error (p_syms p) (S (snd it)))'))
M('item-additions-first', 'Item.v', 'additions', 'C23', 'every item of a set is closed over',
  ('let* ll := mapM (additions_item g) s in', 'let* ll := mapM (additions_item g) (firstn 1 s) in'))
M('item-index-core', 'Item.v', 'is_index', 'C24', 'sets that differ in lookaheads are different sets',
  ('find_index (fun t => eqb t s) sets.', 'find_index (fun t => eqb (map fst t) (map fst s)) sets.'))
M('item-items-unclosed', 'Item.v', 'items', 'C24', 'the first set is closed',
  ('let* i0 := closure g initial in', 'let* i0 := Ok initial in'))
M('lex-split-chars', 'Lex.v', 'split_byte', 'C14', 'a lexeme is cut at byte offsets (a bug of the code with other than ASCII)',
  ('match split_byte s\' (k - utf8_len1 c) with', 'match split_byte s\' (k - 1) with'))
M('lexgen-bool-swapped', 'LexGen.v', 'dec_bool', 'C41', 'hasValue is written as it is',
  ('if b then tx "true" else tx "false".', 'if b then tx "false" else tx "true".'))
M('lexgen-enum-one', 'LexGen.v', 'enum', 'C41', 'tables are numbered from 0',
  ('combine (seq 0 (length l)) l.', 'combine (seq 1 (length l)) l.'))
M('lexgen-range-short', 'LexGen.v', 'nrange', 'C49', 'every character of a range of codepoints is in the table',
  ('(seq 0 (N.to_nat (b - a))).', '(seq 0 (N.to_nat (b - a) - 1)).'))
M('nfa-targets-last', 'Nfa.v', 'push_targets', 'C01', 'every alternative is entered',
  ("let* n' := push_edge n i None t' in\n      push_targets n' i ts", "match ts with [] => push_edge n i None t' | _ => push_targets n i ts end"))
M('nfa-edge-if-negated', 'Nfa.v', 'push_edge_if', 'C01', 'a repetition is skipped or repeated only where it may be',
  ('if b then push_edge n from None to else Ok n.', 'if b then Ok n else push_edge n from None to.'))
M('nfa-init-swapped', 'Nfa.v', 'nfa_init', 'C01', 'the second state accepts',
  ('NFA [] [State None false; State None true].', 'NFA [] [State None true; State None false].'))
M('nfa-closure-first', 'Nfa.v', 'nfa_epsilon_closure', 'C01', 'the closure of a set is that of all its states',
  ('n [] (rev set).', 'n [] (rev (firstn 1 set)).'))
M('nfa-simulate-no-start-closure', 'Nfa.v', 'nfa_simulate', 'C01', 'the epsilon moves before the first character are made',
  ('let* start := nfa_epsilon_closure n (shuf 0 [START_IDX]) in', 'let* start := Ok (shuf 0 [START_IDX]) in'))
M('nfa-simulate-no-closure', 'Nfa.v', 'simulate_from', 'C01', 'the epsilon moves after a character are made',
  ("let* set' := nfa_epsilon_closure n (shuf (S k) m) in", "let* set' := Ok (shuf (S k) m) in"))
M('overlap-disjoint-negated', 'Overlap.v', 'is_disjoint', 'C09', 'ranges are split where they overlap',
  ('bool := negb (intersects a b).', 'bool := negb (intersects a b) || (snd a =? snd b)%N.'))
M('overlap-add-from-zero', 'Overlap.v', 'add_range', 'C09', 'a range is compared with those not yet passed',
  ('ar_run ([(range, start)], v).', 'ar_run ([(range, S start)], v).'))
M('parsegen-imports-none', 'ParseGen.v', 'imports_text', 'C37', 'the file imports the library it uses',
  ('Definition imports_text : list N := tx "import * as U from ""./util""\n', 'Definition imports_text : list N := tx "import * as L from ""./util""\n'))
M('parsegen-popped-unchecked', 'ParseGen.v', 'popped_values', 'C37', 'a failed condition ends in the error of its action',
  ('tx ")`"))\n        (tx "`error: popping off symbol Stack Action" ++ decn (ga_idx a) ++ tx "`")).', 'tx ")`"))\n        (tx "`error: popping off symbol Stack Action" ++ decn (S (ga_idx a)) ++ tx "`")).'))
M('parsegen-variants-swapped', 'ParseGen.v', 'variants_text', 'C47', 'every non-terminal has its type declared',
  ('flat_map (fun v => tx "type " ++ fst v ++ tx " = " ++ snd v', 'flat_map (fun v => tx "type " ++ snd v ++ tx " = " ++ fst v'))
M('parsegen-kinds-open', 'ParseGen.v', 'tokenkind_text', 'C47', 'the table of token kinds has all tokens',
  ('flat_map kind_text (enum (g_tokens g))', 'flat_map kind_text (tl (enum (g_tokens g)))'))
M('support-quotes-kept', 'Support.v', 'alloc_quoted_str', 'C45', 'the quotes are removed',
  ('Definition alloc_quoted_str (s : str) : res str := strip s.', 'Definition alloc_quoted_str (s : str) : res str := Ok s.'))
M('support-code-kept', 'Support.v', 'alloc_ts_code', 'C45', 'the parentheses are removed',
  ('Definition alloc_ts_code (s : str) : res str := strip s.', 'Definition alloc_ts_code (s : str) : res str := Ok s.'))
M('support-precedence-equal', 'Support.v', 'precedence', 'C48', 'different kinds of symbols are ordered',
  ('IStr _ => 1 | INamed _ _ => 2', 'IStr _ => 4 | INamed _ _ => 2'))
M('support-length-chars', 'Support.v', 'byte_len', 'C45', 'lengths are in bytes',
  ('Definition byte_len (s : str) : nat := utf8_len s.', 'Definition byte_len (s : str) : nat := length s.'))
M('table-insert-clears', 'Table.v', 'tbl_insert', 'C28', 'an entry does not remove the others of its row',
  ('map_insert k v (match o with Some m => m | None => [] end)', 'map_insert k v []'))
M('table-merge-last', 'Table.v', 'merge_cores', 'C25', 'every set has a merged one',
  ('let groups := group_cores hash 0 sets [] in\n  let* st := foldM (merge_group sets)', 'let groups := group_cores hash 0 (removelast sets) [] in\n  let* st := foldM (merge_group sets)'))
M('table-merge-first', 'Table.v', 'merge_sets', 'C25', 'the lookaheads of all sets with one core are merged',
  ('let* st := take_set sets presence first in\n      merge_rest sets is\' st', 'let* st := take_set sets presence first in\n      merge_rest sets [] st'))
M('table-action-first', 'Table.v', 'action_state', 'C28', 'every item of a state makes its entries',
  ('(fst e) (snd e)) (snd e) t.', '(fst e) (snd e)) (firstn 1 (snd e)) t.'))
M('table-goto-last', 'Table.v', 'goto_state', 'C28', 'every non-terminal has its goto entries',
  ('(fst e) (snd e)) (non_terminals g) t.', '(fst e) (snd e)) (tl (non_terminals g)) t.'))
M('tslex-next-first', 'TsLex.v', 'NextState', 'C42', 'labels and targets line up',
  ('else NextState label labels\' (tl to) (Succ size i)', 'else NextState label labels\' to (Succ size i)'))
M('tslex-value-end', 'TsLex.v', 'TokenDefToToken', 'C42', 'the value of a token ends with the lexeme',
  ('(Some begin) (Succ size (Some forward))', '(Some begin) (Some forward)'))
M('tsparse-action-column', 'TsParse.v', 'GetAction', 'C43', 'the entry is that of the state and the token',
  ('match getn top (pt_action P) with Some row => getn a row', 'match getn a (pt_action P) with Some row => getn top row'))
M('tsparse-indices-order', 'TsParse.v', 'TokenIndicesImpl', 'C43', 'the tokens are parsed in order',
  ('| Some k => TokenIndicesImpl tail (k :: ret)', '| Some k => TokenIndicesImpl tail (ret ++ [k])'))
M('util-succ-beyond', 'TsUtil.v', 'Succ', 'C44', 'the successor table ends at the size',
  ('if i <? size then Some (S i) else None', 'if S i <? size then Some (S i) else None'))
M('util-lte-strict', 'TsUtil.v', 'Lte', 'C44', 'a number is at most itself',
  ('if extends A B then Some true else Negate (GtImpl A B)', 'if extends A B then Some false else Negate (GtImpl A B)'))
M('util-lt-equal', 'TsUtil.v', 'Lt', 'C44', 'a number is not less than itself',
  ('if extends A B then Some false else Negate (GtImpl A B)', 'Negate (GtImpl A B)'))
M('util-gte-strict', 'TsUtil.v', 'Gte', 'C44', 'a number is at least itself',
  ('if extends A B then Some true else GtImpl A B', 'if extends A B then Some false else GtImpl A B'))
M('util-add-pred', 'TsUtil.v', 'AddLit', 'C44', 'Add adds',
  ('then AddLit (Succ A) b\'', 'then AddLit A b\''))
M('util-reverse-not', 'TsUtil.v', 'ReverseImpl', 'C44', 'Reverse reverses',
  ('A :: B => ReverseImpl B (A :: State)', 'A :: B => ReverseImpl B (State ++ [A])'))
M('util-pop-one-more', 'TsUtil.v', 'PopNStack', 'C44', 'n elements are popped',
  ('    | O => Some arr\n    | S n\' => match arr with\n              | _ :: tail =>', '    | O => Some (tl arr)\n    | S n\' => match arr with\n              | _ :: tail =>'))
M('file-ident-short', 'GrammarFile.v', 'm_ident', 'C51', 'a name is as long as possible',
  ('then Some (S (span word_rest s\'))', 'then Some (S (Nat.min 1 (span word_rest s\')))'))
M('file-str-quote', 'GrammarFile.v', 'm_str', 'C51', 'strings begin with a double quote',
  ('if (c =? 34)%N then option_map S (str_end s\')', 'if (c =? 39)%N then option_map S (str_end s\')'))
M('file-patterns-no-code', 'GrammarFile.v', 'patterns', 'C51', 'bodies may have code',
  ('(Some GId, m_ident); (Some GCode, m_code)]', '(Some GId, m_ident)]'))
M('lalr-other-grammar', 'Lalr.v', 'lalr_new', 'C36', 'the lexer is that of the grammar',
  ('let* L := from_grammar parse_regex g in', 'let* L := from_grammar (fun _ => None) g in'))
# --- C61
M('reach-dead-state', 'Dfa.v', 'build_label', 'C61', 'no state is made for the empty set',
  ('      match u with\n      | [] => Ok st\n      | _ =>', '      match u with\n      | _ =>'))
M('reach-start-kept', 'Dfa.v', 'build', 'C61', 'every state is reached',
  ("let st0 := BState [] [false] [set_of_list c0] [] [] in", "let st0 := BState [] [false; false] [set_of_list c0; []] [] [] in"))
# --- C62
M('useless-names-checked', 'Item.v', 'items', 'C62', 'rules that are not used may use names without rules',
  ('Definition items (g : grammar) : res (list item_set) :=\n', 'Definition items (g : grammar) : res (list item_set) :=\n  let* _ := mapM (fun p => mapM (fun x => match x with SNon n => production_iter g n | _ => Ok [] end) (p_syms p)) (g_prods g) in\n'))
M('useless-all-tokens', 'Item.v', 'items', 'C62', 'the tokens of other rules are no lookaheads',
  ('let* i0 := closure g initial in', 'let* i0 := closure g [((0, 0), seq 0 (length (g_tokens g)))] in'))
M('useless-start-more', 'Item.v', 'items', 'C62', 'the first state has only rules the start symbol uses',
  ('let* i0 := closure g initial in', 'let* i0 := closure g (map (fun p => ((p, 0), [EOF_IDX])) (seq 0 (length (g_prods g)))) in'))
# --- C63, C64
M('cost-lex-rescan', 'Lex.v', 'lex_step', 'C63', 'after a token the loop goes on behind it, not one character after its beginning',
  ('0 (k + 1) (k + 1) None)', '0 (S (ls_begin s)) (S (ls_begin s)) None)'))
M('cost-lex-whitespace-twice', 'Lex.v', 'lex_step', 'C63', 'white space takes one iteration',
  ('inl (LState (ls_tokens s) (ls_state s) (S (ls_begin s)) (S (ls_forward s)) None)', 'inl (LState (ls_tokens s) (ls_state s) (S (ls_begin s)) (ls_forward s) None)'))
M('cost-rep-unrolled', 'Nfa.v', 'compile', 'C63', 'a repetition adds two states',
  ('      let i := length (states n3) in\n      let* n4 := push_edge (push_state n3) i None s_in in', '      let i := length (states n3) in\n      let* n4 := push_edge (push_state (push_state n3)) i None s_in in'))
M('cost-alt-state-lost', 'Nfa.v', 'compile', 'C63', 'an alternation adds two states',
  ('let* (n2, targets) := go hs (push_state n1) in', 'let* (n2, targets) := go hs (push_state (push_state n1)) in'))
M('cost-parse-trace-shift', 'Parse.v', 'parse_step', 'C63', 'a shift moves on in the tokens',
  ("inl (PState (q :: ps_stack s) i' a' (ps_trace s))", "inl (PState (q :: ps_stack s) (ps_i s) a' (ps_trace s))"))
M('cost-parse-stack-kept', 'Parse.v', 'parse_step', 'C63', 'the stack has no more entries than tokens were read, and one',
  ('| Some q => inl (PState (q :: st) (ps_i s)', '| Some q => inl (PState (q :: ps_stack s) (ps_i s)'))
M('white-newline-token-only', 'Lex.v', 'is_whitespace', 'C64', 'a newline is as good as a blank',
  ('(c =? 10)%N || (c =? 32)%N', '(c =? 32)%N'))
M('white-one-only', 'Lex.v', 'lex_step', 'C64', 'more than one blank can follow a token',
  ('if is_whitespace c && (ls_forward s =? ls_begin s) then', 'if is_whitespace c && (ls_forward s =? ls_begin s) && negb (match nth_error input (S (ls_forward s)) with Some d => is_whitespace d | None => false end) then'))
M('white-not-first', 'Lex.v', 'lex_step', 'C64', 'white space before the first token is skipped',
  ('if is_whitespace c && (ls_forward s =? ls_begin s) then', 'if is_whitespace c && (ls_forward s =? ls_begin s) && negb (ls_begin s =? 0) then'))
M('white-in-token', 'Lex.v', 'lex_step', 'C64', 'white space ends a token: ab and a b are different, a b and a  b are not',
  ('          match matching with\n          | Some e =>', '          match (if is_whitespace c && (ls_begin s <? ls_forward s) && match nth_error input (S (ls_forward s)) with Some d => negb (is_whitespace d) | None => false end then Some (DEdge (ls_state s) (c, (c + 1)%N) (ls_state s)) else matching) with\n          | Some e =>'))
M('white-begin-kept', 'Lex.v', 'lex_step', 'C64', 'the value of a token has no white space before it',
  ('inl (LState (ls_tokens s) (ls_state s) (S (ls_begin s)) (S (ls_forward s)) None)', 'inl (LState (ls_tokens s) (ls_state s) (ls_begin s) (S (ls_forward s)) None)'))
# --- C65, C66, C67
M('separate-goes-on', 'Lex.v', 'lex_step', 'C65', 'a word that cannot be lexed ends the list of tokens',
  ('else inr (lex_finish L input s)', 'else inl (LState (ls_tokens s) 0 (S (ls_begin s)) (S (ls_begin s)) None)'))
M('separate-forgets', 'Lex.v', 'lex_step', 'C65', 'the tokens of the first text are kept',
  ('inl (LState (ls_tokens s) (ls_state s) (S (ls_begin s)) (S (ls_forward s)) None)', 'inl (LState [] (ls_state s) (S (ls_begin s)) (S (ls_forward s)) None)'))
M('separate-no-repeat', 'Lex.v', 'lex_step', 'C65', 'a token of the second text is found also when the first ends with one of that kind',
  ('inl (LState (ls_tokens s ++ [t]) 0 (k + 1) (k + 1) None)', 'inl (LState (if existsb (fun u => eqb (tk_name u) (tk_name t)) (ls_tokens s) then ls_tokens s else ls_tokens s ++ [t]) 0 (k + 1) (k + 1) None)'))
M('size-states-unmerged', 'Table.v', 'make_tables', 'C66', 'there are no more states than cores',
  ('Ok (Tables act got lalr).', 'Ok (Tables act got lr).'))
M('size-rows-shifted', 'Table.v', 'enumerate', 'C66', 'every row of the tables belongs to a state',
  ('combine (seq 0 (length l)) l.', 'combine (seq 1 (length l)) l.'))
M('size-no-merge', 'Table.v', 'group_cores', 'C66', 'sets with the same core are one state',
  ('(group_push (hash (core s)) i l)', '(group_push (N.of_nat i) i l)'))
M('size-column-shifted', 'Table.v', 'reduce_entry', 'C66', 'every column of the action table belongs to a token',
  ('else action_put t i la (Reduce (fst it)).', 'else action_put t i (S la) (Reduce (fst it)).'))
M('generate-eps-written', 'ParseGen.v', 'token_text', 'C67', 'no file is written for a body with an epsilon',
  ('| SEps => Panic PTodo', '| SEps => entry (tx "eps") []'))
M('generate-unnamed-skipped', 'ParseGen.v', 'from_input_symbol', 'C67', 'no file is written for a symbol in brackets without a name',
  ('| INamed None _ => Panic PUnwrapNone', '| INamed None _ => Ok None'))
M('generate-nested-allowed', 'ParseGen.v', 'checks', 'C67', 'no file is written for a name inside a name',
  ('| PNamed _ (PNamed _ _) => Panic PAssert', '| PNamed _ (PNamed _ _) => Ok ([], [])'))
M('generate-eof-panics', 'ParseGen.v', 'from_input_symbol', 'C67', 'EOF in a body does not keep the file from being written',
  ('| IEps | IEof => Ok None', '| IEps => Ok None | IEof => Panic PTodo'))
M('generate-no-bodies', 'ParseGen.v', 'gactions', 'C67', 'a rule without bodies does not keep the file from being written',
  ('Definition gactions (ast : list aprod) : res (list gaction) :=\n', 'Definition gactions (ast : list aprod) : res (list gaction) :=\n  let* _ := mapM (fun p => match ap_bodies p with [] => Panic PIndex | _ => Ok tt end) ast in\n'))
M('generate-name-twice', 'ParseGen.v', 'parse_generate', 'C67', 'two rules with one name do not keep the file from being written',
  ('Definition parse_generate (ast : list aprod) (l : lalr) : res (list N) :=\n', 'Definition parse_generate (ast : list aprod) (l : lalr) : res (list N) :=\n  let* _ := (if length (variants ast) =? length ast then Ok tt else Panic PAssert) in\n'))
M('generate-lexer-empty', 'LexGen.v', 'lex_generate', 'C67', 'the file of a lexer whose grammar has one token is written',
  ('let* c := lex_ctx_new L in Ok (lex_ctx_text c).', 'if length (lx_tokens L) <? 2 then Panic PIndex else let* c := lex_ctx_new L in Ok (lex_ctx_text c).'))
# --- definitions without a mutant so far
M('dfa-closure-forgets', 'Dfa.v', 'dclo_loop', 'C06', 'the closure follows all epsilon edges',
  ("dclo_loop fuel' n set' stack''", "dclo_loop fuel' n set' (match stack'' with [] => [] | _ :: _ => stack' end)"))
M('dfa-utf8-chars', 'Dfa.v', 'utf8_len', 'C07', 'texts beyond ASCII are never accepted, as characters are compared with bytes',
  ('fold_right (fun c n => utf8_len1 c + n) 0 s.', 'fold_right (fun c n => 1 + n) 0 s.'))
M('grammar-as-non-string', 'Grammar.v', 'as_non', 'C20', 'a literal is not looked up as a rule',
  ('match x with SNon n => Some n | _ => None end.', 'match x with SNon n | SStr n => Some n | _ => None end.'))
M('file-space-end', 'GrammarFile.v', 'space_b', 'C53', 'a carriage return is white space',
  ('(c <=? snd r)%N) spaces.', '((c <? snd r)%N || (fst r =? snd r)%N)) spaces.'))
M('file-span-one', 'GrammarFile.v', 'span', 'C51', 'a name goes on as long as it can',
  ("if p c then S (span p s') else 0", "if p c then S (match s' with d :: s'' => if p d then S (span p s'') else 0 | [] => 0 end) else match s' with d :: _ => 0 | [] => 0 end"))
M('file-lit-prefix', 'GrammarFile.v', 'm_lit', 'C51', 'a literal cut off by the end of the file is none',
  ('| _, [] => None\n  end.\n(** grammar.lalrpop:47. *)', '| _, [] => Some 0\n  end.\n(** grammar.lalrpop:47. *)'))
M('file-code-no-open', 'GrammarFile.v', 'm_code', 'C51', 'an action begins with a parenthesis',
  ("if (c =? 40)%N then option_map S (code_end s')", "if (c =? 40)%N || (c =? 123)%N then option_map S (code_end s')"))
M('file-trailing', 'GrammarFile.v', 'parse_grammar', 'C51', 'the whole file is read',
  ('parse_program (S (length ts)) ts.', 'parse_program (S (length ts)) (removelast ts).'))
M('item-name-any', 'Item.v', 'dot_production_name', 'C22', 'only non-terminals are expanded',
  ('Some x => as_non x | None => None end).', 'Some x => match x with SNon n | SStr n => Some n | _ => None end | None => None end).'))
M('item-iter-all', 'Item.v', 'item_iter', 'C22', 'lookaheads come from what follows the symbol after the dot',
  ('| Some p => skipn (snd it) (p_syms p)', '| Some p => skipn (snd it - 1) (p_syms p)'))
M('item-contains-core', 'Item.v', 'is_contains', 'C24', 'sets with the same core and other lookaheads are different',
  ('match is_index sets s with Some _ => true | None => false end.', 'existsb (fun t => eqb (map fst t) (map fst s)) sets.'))
M('lexer-accepting-last', 'Lex.v', 'lexer_new', 'C10', 'the first definition wins',
  ('Lexer d tokens (d_accepting_states d).', 'Lexer d tokens (map (fun e => (fst e, rev (snd e))) (d_accepting_states d)).'))
M('lexer-tokens-deduped', 'Lex.v', 'from_tokens', 'C15', 'every token is in the lexer',
  ('let* (n, tmap) := lex_nfa tokens in', 'let* (n, tmap) := lex_nfa (removelast tokens) in'))
M('lexgrammar-from-one', 'LexGrammar.v', 'grammar_tokens', 'C16', 'tokens have the indices of the grammar',
  ('grammar_tokens_from 0 (g_tokens g).', 'grammar_tokens_from 1 (g_tokens g).'))
M('lexgrammar-eof-lower', 'LexGrammar.v', 'eof_name', 'C16', 'the last token is called EOF',
  ('[69; 79; 70]%N.', '[101; 111; 102]%N.'))
M('usize-none-zero', 'OptionUsize.v', 'ou_none', 'C35', 'none is no index',
  ('Definition ou_none : ousize := OU usize_max.', 'Definition ou_none : ousize := OU 0.'))
M('usize-is-none-zero', 'OptionUsize.v', 'ou_is_none', 'C35', 'none is recognised',
  ('Definition ou_is_none (o : ousize) : bool := ou_word o =? usize_max.', 'Definition ou_is_none (o : ousize) : bool := ou_word o =? 0.'))
M('usize-unwrap-none', 'OptionUsize.v', 'ou_unwrap', 'C35', 'unwrapping none panics',
  ('if ou_word o =? usize_max then Panic PUnwrapNone else Ok (ou_word o).', 'Ok (ou_word o).'))
M('gen-token-index-zero', 'ParseGen.v', 'token_index', 'C47', 'the tokens of a production are those of its body',
  ('Some i => Ok i | None => Panic PUnwrapNone end.', 'Some i => Ok (i - 1) | None => Panic PUnwrapNone end.'))
M('release-regex-short', 'Release.v', 'alloc_regex_release', 'C58', 'in a release build a regex is stripped as in a debug build',
  ('if byte_len s <? 3 then [] else strip_release s.', 'if byte_len s <? 4 then [] else strip_release s.'))
M('release-merge-keeps', 'Release.v', 'merge_rest_release', 'C58', 'a release build merges the lookaheads',
  ("merge_rest_release sets is' (s', presence')", "merge_rest_release sets is' (s, presence')"))
M('release-parse-empty', 'Release.v', 'parse_impl_release', 'C58', 'a release build panics without tokens as well',
  ('| [] => Panic PIndex\n  | a :: _ =>\n      match run (parse_step_release', '| [] => Ok []\n  | a :: _ =>\n      match run (parse_step_release'))
M('release-counter-i16', 'Release.v', 'i32_max', 'C58', 'the counter of a debug build is an i32',
  ('Definition i32_max : N := 2147483647.', 'Definition i32_max : N := 32767.'))
M('report-no-tokens', 'Report.v', 'parse_report', 'C55', 'the report is of the token read',
  ('(parse_init a) with', '(parse_init (last tokens a)) with'))
M('support-alloc-trim', 'Support.v', 'alloc_str', 'C54', 'names are kept as they are written',
  ('Definition alloc_str (s : str) : str := s.', 'Definition alloc_str (s : str) : str := firstn 8 s.'))
M('table-get-row', 'Table.v', 'tbl_get', 'C26', 'a token without an entry has no action',
  ('match map_get i t with Some m => map_get k m | None => None end.', 'match map_get i t with Some m => match map_get k m with Some v => Some v | None => match m with (_, v) :: _ => Some v | [] => None end end | None => None end.'))
M('text-decn-hex', 'Text.v', 'decn', 'C47', 'numbers are written in decimal',
  ('Definition decn (n : nat) : list N := dec (N.of_nat n).', 'Definition decn (n : nat) : list N := if n <? 10 then dec (N.of_nat n) else dec (N.of_nat (S n)).'))
M('tslex-never-false', 'TsLex.v', 'may_be_true', 'C42', 'outside the tables never counts as true',
  ('match b with Some b => b | None => true end.', 'match b with Some b => b | None => false end.'))
M('tslex-eof-kind', 'TsLex.v', 'EOF', 'C42', 'the list of tokens ends with EOF',
  ('TTok [69; 79; 70]%N None.', 'TTok [69; 79]%N None.'))
M('tslex-chars-unchecked', 'TsLex.v', 'ts_lex', 'C42', 'a character outside the table gives the error, wherever it is',
  ('if forallb (fun c => map_mem c chars) input then', 'if forallb (fun c => map_mem c chars) (firstn 1 input) then'))
M('tsparse-gets-short', 'TsParse.v', 'gets', 'C43', 'a kind is looked up by its whole name',
  ('find (fun e => eqb (fst e) k) l).', 'find (fun e => eqb (firstn (length k) (fst e)) k) l).'))
M('tsparse-getn-le', 'TsParse.v', 'getn', 'C43', 'a row is looked up by its number',
  ('find (fun e => (fst e =? k)%N) l).', 'find (fun e => (k <=? fst e)%N) l).'))
M('tsparse-hold-short', 'TsParse.v', 'all_hold', 'C57', 'an action checks all its symbols',
  ('    | [], [] => true\n    | x :: l, s :: ss => symbol_holds x s && all_hold l ss\n    | _, _ => false', '    | [], _ => true\n    | x :: l, s :: ss => symbol_holds x s && match l with [] => true | _ => all_hold l ss end\n    | _, _ => false'))
M('util-pred-zero', 'TsUtil.v', 'Pred', 'C44', 'the predecessor of 0 is 0',
  ('| Some O => Some 0\n', '| Some O => None\n'))
M('util-negate-id', 'TsUtil.v', 'Negate', 'C44', 'negation negates',
  ('option_map negb A.', 'option_map (fun b => b) A.'))
M('util-eq-never', 'TsUtil.v', 'Eq', 'C44', 'numbers are equal only to themselves',
  ('Some b => a =? b | None => false end\n    end.\n\n  (** util.ts:75-79', 'Some b => a <=? b | None => false end\n    end.\n\n  (** util.ts:75-79'))
M('util-gt-zero', 'TsUtil.v', 'GtLit', 'C44', 'a number is not greater than itself',
  ('| Some O => Some false\n', '| Some O => Some true\n'))
M('util-sub-one', 'TsUtil.v', 'SubLit', 'C44', 'subtraction takes away all of it',
  ("then SubLit (Pred A) b'", "then SubLit A b'"))
M('util-extends-never', 'TsUtil.v', 'extends', 'C44', 'a literal does not extend never',
  ('Some _, None => false | None, _ => true end.', 'Some _, None => true | None, _ => true end.'))
M('util-pop-order', 'TsUtil.v', 'PopNStackWithValueImpl', 'C44', 'the values popped are in the order of the text',
  ('(head :: ret) else None', '(ret ++ [head]) else None'))
M('util-substring-one', 'TsUtil.v', 'Substring', 'C44', 'a substring begins where it should',
  ('SubstringImpl str start end_ (Some 0).', 'SubstringImpl str start end_ (Some 1).'))
M('util-add-swapped', 'TsUtil.v', 'Add', 'C44', 'addition is never of never',
  ('Definition Add (A B : option nat) : option nat := match B with None => None | Some b => AddLit A b end.', 'Definition Add (A B : option nat) : option nat := match B with None => A | Some b => AddLit A b end.'))
M('tserror-invalid-state', 'TsParse.v', 'ParseImpl', 'C68', 'the error for a token names the token',
  ('| None => PInvalid a symbolStack', '| None => PInvalid top symbolStack'))
M('tserror-invalid-empty', 'TsParse.v', 'ParseImpl', 'C68', 'the error for a token shows what has been read',
  ('| None => PInvalid a symbolStack', '| None => PInvalid a []'))
M('tserror-invalid-reversed', 'TsParse.v', 'ParseImpl', 'C68', 'the error for a token shows what has been read, last first',
  ('| None => PInvalid a symbolStack', '| None => PInvalid a (rev symbolStack)'))
M('tserror-action-empty', 'TsParse.v', 'ParseImpl', 'C68', 'the error of an action shows what has been read',
  ('| None => PAction top a symbolStack', '| None => PAction top a []'))
M('tserror-action-below', 'TsParse.v', 'ParseImpl', 'C68', 'the error of an action names the state of the reduction',
  ('| None => PAction top a symbolStack', "| None => PAction top' a symbolStack"))
M('tserror-shift-twice', 'TsParse.v', 'ParseImpl', 'C68', 'every token is on the stack once',
  ("again (q :: stack) i' a' (SymTok t q :: symbolStack)", "again (q :: stack) i' a' (SymTok t q :: SymTok t q :: symbolStack)"))
M('tserror-accept-invalid', 'TsParse.v', 'ParseImpl', 'C68', 'the error for a token is a rejection of the Rust parser',
  ('| Some TAccept => PStack symbolStack', '| Some TAccept => PInvalid a symbolStack'))
M('tserror-no-goto', 'TsParse.v', 'ParseImpl', 'C68', 'a missing goto is no unexpected token',
  ('| None => PNoGoto', '| None => PInvalid a symbolStack'))
M('tserror-emit-no-type', 'TsParse.v', 'EmitProduction', 'C68', 'an action fails only when its check does',
  ('if all_hold body popped && has_type name (code k popped) then', 'if all_hold body popped && negb (has_type name (code k popped)) then'))
M('tserror-emit-pops-less', 'TsParse.v', 'EmitProduction', 'C68', 'a rule is checked on the symbols of its body',
  ('match PopNStackWithValue size stack (length body) with', 'match PopNStackWithValue size stack (length body - 1) with'))
M('util-add-never-left', 'TsUtil.v', 'Succ', 'C44', 'the successor of never is never',
  ('match T with None => None | Some i => if i <? size', 'match T with None => Some 0 | Some i => if i <? size'))
M('util-sub-beyond', 'TsUtil.v', 'SubLit', 'C44', 'subtracting what is not in the tables is never',
  ('| S b\' => if S b\' <=? size then SubLit (Pred A) b\' else None', '| S b\' => if S b\' <=? size then SubLit (Pred A) b\' else A'))
M('relall-symbol-regex', 'ReleaseAll.v', 'parse_symbol_release', 'C58', 'a release build reads regexes as regexes',
  ('| GR :: GStr s :: r => Ok (IReg (alloc_regex_release s), r)', '| GR :: GStr s :: r => Ok (IStr (alloc_regex_release s), r)'))
M('relall-symbol-quotes', 'ReleaseAll.v', 'parse_symbol_release', 'C58', 'a release build takes the quotes off',
  ('Ok (IStr (alloc_quoted_str_release s), r)', 'Ok (IStr s, r)'))
M('relall-named-plain', 'ReleaseAll.v', 'parse_named_release', 'C58', 'a release build keeps the names of symbols',
  ('Ok (INamed (Some (alloc_str n)) (fst xr), r\')', 'Ok (fst xr, r\')'))
M('relall-syms-first', 'ReleaseAll.v', 'parse_syms_release', 'C58', 'a release build reads all symbols of a body',
  ('| GArrow :: r => Ok ([fst xr], r)', '| GArrow :: r => Ok ([], r)'))
M('relall-body-code', 'ReleaseAll.v', 'parse_body_release', 'C58', 'a release build takes the parentheses off the code',
  ('Ok (ABody (fst xsr) (alloc_ts_code_release c), r)', 'Ok (ABody (fst xsr) c, r)'))
M('relall-bodies-comma', 'ReleaseAll.v', 'parse_bodies_release', 'C58', 'a release build reads a body without a comma behind it',
  ('| GClose :: r => Ok ([fst br], r)', '| GClose :: r => Panic PUnwrapNone'))
M('relall-rule-type', 'ReleaseAll.v', 'parse_rule_release', 'C58', 'a release build keeps the type of a rule',
  ('(fst bsr) start (alloc_ts_code_release c), snd bsr)', '(fst bsr) start [], snd bsr)'))
M('relall-production-start', 'ReleaseAll.v', 'parse_production_release', 'C58', 'an exported rule is not a start rule in a release build',
  ('| GExport :: r => parse_rule_release fuel false r', '| GExport :: r => parse_rule_release fuel true r'))
M('relall-program-reversed', 'ReleaseAll.v', 'parse_program_release', 'C58', 'a release build keeps the order of the rules',
  ('in Ok (fst pr :: ps)', 'in Ok (ps ++ [fst pr])'))
M('relall-grammar-short', 'ReleaseAll.v', 'parse_grammar_release', 'C58', 'a release build reads the whole file',
  ('parse_program_release (S (length ts)) ts', 'parse_program_release (S (length ts)) (removelast ts)'))
M('relall-label-merge', 'ReleaseAll.v', 'build_label_release', 'C58', 'a release build makes the same edges',
  ('(b_edges st ++ [DEdge t_idx label idx])', '(b_edges st ++ [DEdge idx label t_idx])'))
M('relall-step-mark', 'ReleaseAll.v', 'build_step_release', 'C58', 'a release build takes every set once',
  ('(update_nth t_idx (fun _ => true) (b_marks st))', '(b_marks st)'))
M('relall-build-map', 'ReleaseAll.v', 'build_release', 'C58', 'a release build keeps the accepting states',
  ('(DFA (b_edges st) firsts (b_map st) (accepting_states n))', '(DFA (b_edges st) firsts (b_map st) [])'))
M('relall-nfa-labels', 'ReleaseAll.v', 'from_nfa_release', 'C58', 'a release build splits the ranges as well',
  ('let* alphabet := remove_overlap (set_of_list labels) in', 'let* alphabet := Ok (set_of_list labels) in'))
M('relall-tokens-reversed', 'ReleaseAll.v', 'from_tokens_release', 'C58', 'a release build keeps the order of the tokens',
  ('let* (n, tmap) := lex_nfa tokens in', 'let* (n, tmap) := lex_nfa (rev tokens) in'))
M('relall-grammar-tokens', 'ReleaseAll.v', 'from_grammar_release', 'C58', 'a release build has all tokens of the grammar',
  ('in from_tokens_release tokens.', 'in from_tokens_release (tl tokens).'))
M('relall-new-lexer', 'ReleaseAll.v', 'lalr_new_release', 'C58', 'a release build fails when a regex is not supported',
  ('let* L := from_grammar_release parse_regex g in', 'let* L := from_grammar_release (fun _ => Some HEmpty) g in'))
M('relall-parse-no-end', 'ReleaseAll.v', 'lalr_parse_release', 'C58', 'a release build parses with the end',
  ('parse_impl_release (l_grammar l) (l_tables l) (map snd conv)', 'parse_impl_release (l_grammar l) (l_tables l) (removelast (map snd conv))'))
M('relall-debug-no-end', 'ReleaseAll.v', 'lalr_parse_debug', 'C58', 'a debug build parses with the end',
  ('parse_impl_debug (l_grammar l) (l_tables l) (map snd conv)', 'parse_impl_debug (l_grammar l) (l_tables l) (removelast (map snd conv))'))
M('spell-regex-tagged', 'LexGrammar.v', 'token_def_with_regex', 'C70', 'a token is named by its spelling (so a literal and a regex can clash)',
  ('| Some h => Ok (Some (TokenDef r true (Some i), h))', '| Some h => Ok (Some (TokenDef (114%N :: r) true (Some i), h))'))
M('spell-literal-no-value', 'LexGrammar.v', 'token_def_with_regex', 'C70', 'a literal has its text as value, as a regex has',
  ('Ok (Some (TokenDef s true (Some i), lit_hir s))', 'Ok (Some (TokenDef s false (Some i), lit_hir s))'))
M('spell-bad-regex-skipped', 'LexGrammar.v', 'token_def_with_regex', 'C17', 'a regex that cannot be read stops the program',
  ('| None => Panic PUnwrapNone\n                | Some h => Ok', '| None => Ok None\n                | Some h => Ok'))
M('spell-stop-at-rule', 'LexGrammar.v', 'grammar_tokens_from', 'C70', 'all terminals have definitions, also those behind the non-terminals',
  ('Ok (match o with Some t => t :: r | None => r end)', 'Ok (match o with Some t => t :: r | None => [] end)'))
M('spell-literal-reversed', 'LexGrammar.v', 'lit_hir', 'C69', 'a literal is read as it is written',
  ('| _ => HConcat (map HLit s)', '| _ => HConcat (map HLit (rev s))'))
M('spell-literal-alternatives', 'LexGrammar.v', 'lit_hir', 'C69', 'a literal is all of its characters',
  ('| _ => HConcat (map HLit s)', '| _ => HAlt (map HLit s)'))
M('print-eats-separator', 'Lex.v', 'lex_step', 'C69', 'the character behind a token belongs to the next',
  ('inl (LState (ls_tokens s ++ [t]) 0 (k + 1) (k + 1) None)', 'inl (LState (ls_tokens s ++ [t]) 0 (k + 2) (k + 2) None)'))
M('print-eof-first', 'LexGrammar.v', 'convert_tokens', 'C69', 'the end comes last',
  ('Ok (r ++ [(Token eof_name None, 0)])', 'Ok ((Token eof_name None, 0) :: r)'))
M('print-eof-no-index', 'LexGrammar.v', 'convert_tokens', 'C69', 'the end has index 0',
  ('Ok (r ++ [(Token eof_name None, 0)])', 'Ok (r ++ [(Token eof_name None, length r)])'))
M('print-last-token-value', 'Lex.v', 'lex_finish', 'C69', 'the last token has its own value',
  ('let* t := make_tok L input (ls_begin s) k a in Ok (ls_tokens s ++ [t])', 'let* t := make_tok L input 0 k a in Ok (ls_tokens s ++ [t])'))
M('print-slice-to-end', 'Lex.v', 'make_tok', 'C69', 'the value of a token ends with the token',
  ('let* v := byte_slice input start (end_ + 1) in', 'let* v := byte_slice input start (length input) in'))
M('long-depth-more', 'TsParse.v', 'Parse', 'C71', 'at most 49 nodes',
  ('ParseImpl 50 toks', 'ParseImpl 60 toks'))
M('long-depth-less', 'TsParse.v', 'Parse', 'C71', '49 nodes are enough',
  ('ParseImpl 50 toks', 'ParseImpl 40 toks'))
M('long-depth-last', 'TsParse.v', 'ParseImpl', 'C71', 'the step that accepts needs depth as well',
  ('| O => PDepth', '| O => match stack with top :: _ => match GetAction top a with Some TAccept => PStack symbolStack | _ => PDepth end | [] => PDepth end'))
M('comment-skipped', 'GrammarFile.v', 'm_space', 'C72', 'no line of comment is skipped',
  ('Definition m_space (s : str) : option nat := Some (span space_b s).', 'Definition m_space (s : str) : option nat := match s with a :: b :: s\' => if ((a =? 47) && (b =? 47))%N then Some (S (S (span (fun c => negb (c =? 10)%N) s\'))) else Some (span space_b s) | _ => Some (span space_b s) end.'))
M('comment-slash-space', 'GrammarFile.v', 'spaces', 'C72', 'a slash is not white space',
  ('[(9, 13); (32, 32);', '[(9, 13); (32, 32); (47, 47);'))
M('comment-slash-word', 'GrammarFile.v', 'word_start', 'C72', 'no name begins with a slash',
  ('((c =? 95) ||', '((c =? 95) || (c =? 47) ||'))
M('comment-literal', 'GrammarFile.v', 'literals', 'C72', 'two slashes are not a token',
  ('(tx ",", GComma)]', '(tx ",", GComma); (tx "//", GComma)]'))
M('quotes-end-of-line', 'GrammarFile.v', 'str_end', 'C72', 'a literal goes on over the end of a line, and a comment in it is a part of it',
  ('if (c =? 34)%N then Some 1\n', 'if (c =? 34)%N then Some 1 else if (c =? 10)%N then None\n'))
M('ll-no-fallback', 'Table.v', 'compute_goto', 'C73', 'behind the first symbol of a rule no transition is missing',
  ('| None => is_index lalr j\n      | Some k => map_get k m', '| None => None\n      | Some k => map_get k m'))
M('ll-first-whole-body', 'First.v', 'first_body', 'C73', 'FIRST goes only as far into a body as it has to, so right recursion is no problem',
  ("      let* (set', b) := rec set y in\n", "      let* (set', b) := rec set y in let* _ := foldM (fun s z => let* (s', _) := rec s z in Ok s') l' set' in\n"))
M('common-same-shift', 'Table.v', 'action_put', 'C74', 'two alternatives with the same next token are a conflict even when both shift to one state',
  ('| Some _ => Panic PConflict', '| Some b => match a, b with Shift x, Shift y => if x =? y then Ok t else Panic PConflict | _, _ => Panic PConflict end'))
M('common-goto-conflict', 'Table.v', 'goto_entry', 'C74', 'alternatives that begin with the same name are no conflict',
  ('  let* j := goto g s (SNon (snd nt)) in\n  match is_index lr j with\n  | Some k => match', '  if (1 <? length (filter (fun e => match dot_token g (fst e) with Ok (Some (SNon n)) => eqb n (snd nt) | _ => false end) s)) then Panic PConflict else\n  let* j := goto g s (SNon (snd nt)) in\n  match is_index lr j with\n  | Some k => match'))
M('regular-reduce-goto-state', 'Parse.v', 'parse_step', 'C75', 'a regular grammar is parsed with the states the tables have',
  ('match tbl_get (t_goto t) top\' (p_name pr) with', 'match tbl_get (t_goto t) top (p_name pr) with'))
M('regular-lookahead-lost', 'Item.v', 'additions_item', 'C75', 'the states of a regular grammar have all their lookaheads',
  ('let* l := mapM (additions_la g it (fst ip)) las in Ok (concat l)', 'let* l := mapM (additions_la g it (fst ip)) (firstn 1 las) in Ok (concat l)'))
M('extend-first-rules-only', 'Grammar.v', 'add_body', 'C76', 'further rules for a name do not replace the earlier ones',
  ('| Some l => l ++ [idx] end', '| Some l => [idx] end'))
M('extend-start-last', 'Grammar.v', 'grammar_from_ast', 'C76', 'the start rule is the first one marked, also when rules are added behind',
  ('match find ap_start ast with', 'match find ap_start (rev ast) with'))
M('lisp-tab-skipped', 'Lex.v', 'is_whitespace', 'C77', 'a tab between words is not accepted',
  ('(c =? 10)%N || (c =? 32)%N', '(c =? 10)%N || (c =? 32)%N || (c =? 9)%N'))
M('lisp-depth', 'Parse.v', 'parse_step', 'C77', 'lists can be nested to any depth',
  ('          let \'(i\', a\') := next_token tokens (ps_i s) (ps_a s) in\n', '          if 200 <? length (ps_stack s) then inr (Panic PStackEmpty) else let \'(i\', a\') := next_token tokens (ps_i s) (ps_a s) in\n'))
M('operator-shift-wins', 'Table.v', 'action_put', 'C78', 'a conflict stops the making of the tables',
  ('| Some _ => Panic PConflict', '| Some (Shift _) => Ok t | Some _ => Ok (tbl_insert t i k a)'))
M('operator-self-union', 'Item.v', 'additions_la', 'C78', 'a lookahead comes from what follows the name',
  ('let* ts := first g (item_iter g (increment it) ++ [a]) in', 'let* ts := first g (item_iter g it ++ [a]) in'))
M('own-shift-shared', 'Table.v', 'reduce_entry', 'C79', 'the new rules are reduced like any other',
  ('if (la =? EOF_IDX) && (fst it =? 0) then', 'if (la =? EOF_IDX) then'))
M('append-trailing-lost', 'Lex.v', 'lex_finish', 'C80', 'the tokens before the last one are kept whatever follows',
  ('| None => Ok (ls_tokens s)\n', '| None => Ok (removelast (ls_tokens s))\n'))
M('append-looks-ahead', 'Lex.v', 'lex_step', 'C80', 'what follows a wrong character is never looked at',
  ('                  else inr (lex_finish L input s)\n', '                  else inr (if existsb (fun c => (c =? 64)%N) (skipn (ls_forward s) input) then Ok [] else lex_finish L input s)\n'))
M('append-parser-peeks', 'Parse.v', 'parse_step', 'C80', 'the parser looks at one token only',
  ('      | None => inr (Panic PInvalidToken)\n', '      | None => match nth_error tokens (S (ps_i s)) with Some a2 => match tbl_get (t_action t) top a2 with Some _ => inl (PState (ps_stack s) (S (ps_i s)) a2 (ps_trace s)) | None => inr (Panic PInvalidToken) end | None => inr (Panic PInvalidToken) end\n'))
M('end-index-panic', 'Grammar.v', 'production_iter', 'C81', 'a name without rules is a failed lookup',
  ('| None => Panic PUnwrapNone\n  | Some idxs', '| None => Ok []\n  | Some idxs'))
M('end-no-start-default', 'Grammar.v', 'grammar_from_ast', 'C81', 'without a start rule there is a panic',
  ('| None => Panic PNoStart', '| None => Panic PUnwrapNone'))
M('end-tables-first', 'Lalr.v', 'lalr_new', 'C81', 'an unsupported regex is found before the tables are made',
  ('  let* L := from_grammar parse_regex g in\n  let* t := make_tables hash g in\n', '  let* t := make_tables hash g in\n  let* L := from_grammar parse_regex g in\n'))
M('end-first-cycle-panic', 'First.v', 'first_sym', 'C81', 'FIRST of a left-recursive name never returns',
  ('      | O => Diverge\n', '      | O => Panic PUnwrapNone\n'))
M('end-bad-regex-skipped', 'LexGrammar.v', 'token_def_with_regex', 'C81', 'a regex that cannot be read stops the building',
  ('                | None => Panic PUnwrapNone\n', '                | None => Ok None\n'))
M('end-unreachable-undefined', 'Item.v', 'items', 'C81', 'names in rules that cannot be used do not matter',
  ('  let* i0 := closure g initial in\n', '  let* _ := mapM (fun p => mapM (fun x => match as_non x with Some n => let* _ := production_iter g n in Ok tt | None => Ok tt end) (p_syms p)) (g_prods g) in\n  let* i0 := closure g initial in\n'))
M('ending-goto-invalid', 'Parse.v', 'parse_step', 'C82', 'a missing goto entry is not reported as a wrong token',
  ('| None => inr (Panic PGotoEmpty)', '| None => inr (Panic PInvalidToken)'))
M('ending-unknown-dropped', 'LexGrammar.v', 'convert_tokens', 'C82', 'every token read is parsed',
  ('  let* r := mapM (token_with_idx (def_map L)) ts in\n', '  let* r := mapM (token_with_idx (def_map L)) (removelast ts) in\n'))
M('ending-eof-literal', 'LexGrammar.v', 'convert_tokens', 'C82', 'only the end of the text has the index of the end',
  ('  Ok (r ++ [(Token eof_name None, 0)]).', '  Ok (r ++ [(Token eof_name None, 0); (Token eof_name None, 0)]).'))
M('ending-stops-at-error', 'Lalr.v', 'lalr_parse', 'C82', 'a text is parsed whatever its length',
  ('  let* ts := lex (l_lexer l) input in\n', '  if 1000 <? length input then Panic PInvalidToken else let* ts := lex (l_lexer l) input in\n'))
M('layer-no-fallback', 'Table.v', 'compute_goto', 'C83', 'no transition of an expression grammar is missing',
  ('| None => is_index lalr j\n', '| None => None\n'))
M('layer-inherited-only', 'Item.v', 'additions_la', 'C83', 'an operator of a level follows its left operand',
  ('first g (item_iter g (increment it) ++ [a])', 'first g [a]'))
M('layer-shift-wins', 'Table.v', 'action_put', 'C83', 'operators that associate to the left are reduced before the next is shifted',
  ('| Some _ => Panic PConflict', '| Some (Shift _) => Ok t | Some _ => Ok (tbl_insert t i k a)'))
M('layer-merge-first', 'Table.v', 'merge_rest', 'C83', 'brackets may be nested to any depth',
  ('      let* s\' := union s other in\n      merge_rest sets is\' (s\', presence\')\n', '      merge_rest sets is\' (s, presence\')\n'))
M('layer-operand-depth', 'Parse.v', 'parse_step', 'C83', 'expressions may be nested to any depth',
  ('          let \'(i\', a\') := next_token tokens (ps_i s) (ps_a s) in\n', '          if 100 <? length (ps_stack s) then inr (Panic PStackEmpty) else let \'(i\', a\') := next_token tokens (ps_i s) (ps_a s) in\n'))
M('layer-regex-literal', 'Grammar.v', 'lower', 'C83', 'a regex atom is a regex token',
  ('| IReg r => SReg r', '| IReg r => SStr r'))
M('mix-short-bodies', 'Parse.v', 'parse_step', 'C84', 'operators may have any number of parts',
  ('                let st := skipn (length (p_syms pr)) (ps_stack s) in\n', '                let st := skipn (Nat.min 4 (length (p_syms pr))) (ps_stack s) in\n'))
M('mix-goto-first-name', 'Table.v', 'compute_goto', 'C84', 'statements and expressions may contain each other',
  ('| None => is_index lalr j\n', '| None => match a with SNon _ => None | _ => is_index lalr j end\n'))
M('mix-rest-first', 'Item.v', 'additions_la', 'C84', 'an operand inside an operator is followed by the next terminal',
  ('first g (item_iter g (increment it) ++ [a])', 'first g (a :: item_iter g (increment it))'))
M('mix-same-first', 'Table.v', 'action_put', 'C84', 'prefix and infix operators may have the same terminal',
  ('| Some _ => Panic PConflict', '| Some _ => Ok (tbl_insert t i k a)'))
M('mix-lower-names', 'Grammar.v', 'lower', 'C84', 'each level has a name of its own',
  ('| INon n => SNon n', '| INon n => SNon (firstn 1 n)'))
M('type-pass-last', 'TsParse.v', 'EmitProduction', 'C85', 'operators get all their operands',
  ('then Some (SymNon name (code k popped) :: rest)', 'then Some (SymNon name (code k (firstn 3 popped)) :: rest)'))
M('type-text-kind', 'TsParse.v', 'EmitProduction', 'C85', 'the value of an operator has the name of its level',
  ('then Some (SymNon name (code k popped) :: rest)', 'then Some (SymNon [] (code k popped) :: rest)'))
M('type-previous-action', 'TsParse.v', 'EmitProduction', 'C85', 'each operator has its own action',
  ('then Some (SymNon name (code k popped) :: rest)', 'then Some (SymNon name (code (N.pred k) popped) :: rest)'))
M('use-report-next', 'Report.v', 'report_step', 'C86', 'a wrong text is reported at the first wrong token',
  ('Report (ps_i s)', 'Report (S (ps_i s))'))
M('use-split-states', 'Table.v', 'merge_group', 'C86', 'one state for each position in a rule',
  ('Ok (MState presence m (index_set_insert (ms_result st) s))', 'Ok (MState presence m (ms_result st ++ [s; s]))'))
M('use-trace-shifts', 'Parse.v', 'parse_step', 'C86', 'one rule for each operator and level passed',
  ('inl (PState (q :: ps_stack s) i\' a\' (ps_trace s))', 'inl (PState (q :: ps_stack s) i\' a\' (ps_trace s ++ [0]))'))
M('seq-no-own-name', 'Item.v', 'additions_item', 'C88', 'a list may have more than one element',
  ('      let* ps := production_iter g n in\n', '      let* ps0 := production_iter g n in\n      let ps := match filter (fun ip => negb (eqb (nth 0 (p_syms (snd ip)) SEps) (SNon n))) ps0 with [] => ps0 | l => l end in\n'))
M('seq-first-lookahead', 'Item.v', 'is_insert', 'C88', 'a list can be followed by its separator and by its end',
  ('| Some las => set_insert a las end) s.', '| Some las => las end) s.'))
M('seq-value-newest', 'TsParse.v', 'EmitProduction', 'C89', 'a longer list is computed from the shorter one',
  ('then Some (SymNon name (code k popped) :: rest)', 'then Some (SymNon name (code k (skipn (length popped - 2) popped)) :: rest)'))
M('seq-pop-three', 'TsParse.v', 'EmitProduction', 'C89', 'operators with lists may have any number of parts',
  ('PopNStackWithValue size stack (length body)', 'PopNStackWithValue size stack (Nat.min 3 (length body))'))
M('print-literal-two', 'LexGrammar.v', 'lit_hir', 'C87', 'the text of a literal is read as that literal',
  ('| _ => HConcat (map HLit s)', '| _ => HConcat (map HLit (firstn 2 s))'))
M('complete-goto-stays', 'Parse.v', 'parse_step', 'C92', 'a missing transition costs a parse tree',
  ('| None => inr (Panic PGotoEmpty)', '| None => inl (PState st (ps_i s) (ps_a s) (ps_trace s ++ [p]))'))
M('complete-core-lookup', 'Table.v', 'compute_goto', 'C92', 'a merged state is looked up with its lookaheads, so transitions can be missing',
  ('| None => is_index lalr j\n', '| None => (fix f k l := match l with [] => None | s\' :: l\' => if eqb (map fst s\') (map fst j) then Some k else f (S k) l\' end) 0 lalr\n'))
M('complete-trace-reversed', 'Parse.v', 'parse_step', 'C92', 'the reductions of the parse tree are printed in order',
  ('| Some Accept => inr (Ok (ps_trace s))', '| Some Accept => inr (Ok (rev (ps_trace s)))'))
M('check-empty-text', 'Lalr.v', 'lalr_parse', 'C93', 'a text without symbols is answered like any other',
  ('  let* ts := lex (l_lexer l) input in\n', '  match input with [] => Ok [] | _ => let* ts := lex (l_lexer l) input in\n'),
  ('  parse_impl (l_grammar l) (l_tables l) (map snd conv).', '  parse_impl (l_grammar l) (l_tables l) (map snd conv) end.'))
M('check-goto-text', 'Table.v', 'goto_entry', 'C93', 'if the check succeeds every parse tree is found',
  ('            | Some v => Ok (tbl_insert t i (snd nt) v)\n            | None => Ok t\n', '            | Some v => Ok (if i =? v then t else tbl_insert t i (snd nt) v)\n            | None => Ok t\n'))
M('types-goto-default', 'TsParse.v', 'ParseImpl', 'C94', 'the types refuse what has no parse tree',
  ('| None => PInvalid a symbolStack', '| None => match symbolStack with [SymNon n v] => PStack symbolStack | _ => PInvalid a symbolStack end'))
M('types-last-token', 'TsParse.v', 'TokenIndices', 'C94', 'the types look at every token',
  ('IxNums (Reverse l)', 'IxNums (Reverse (firstn 40 l))'))
M('types-value-depth', 'TsParse.v', 'ParseImpl', 'C94', 'the value is that of the whole tree',
  ('| Some TAccept => PStack symbolStack', '| Some TAccept => PStack (if depth\' <? 5 then [] else symbolStack)'))
M('print-stack-reversed', 'Trace.v', 'show_stack', 'C95', 'the stack is printed from its bottom to its top',
  ('(map decn (rev s))', '(map decn s)'))
M('print-no-space', 'Trace.v', 'show_body', 'C95', 'the symbols of a rule are printed with spaces between them',
  ('(if last =? i then [] else [32%N])', '[]'))
M('print-space-after', 'Trace.v', 'show_body', 'C95', 'the symbols of a rule are printed with spaces between them only',
  ('(if last =? i then [] else [32%N])', '[32%N]'))
M('print-old-stack', 'Trace.v', 'print_step', 'C95', 'the stack after a reduction is printed',
  ('show_stack (q :: top\' :: rest)', 'show_stack (ps_stack s)'))
M('print-rule-off', 'Trace.v', 'print_step', 'C95', 'the rule printed is the one reduced by',
  ('            match get_production g p with\n            | None => []', '            match get_production g (S p) with\n            | None => []'))
M('print-count-off', 'Trace.v', 'output_step', 'C95', 'the count is of leaves, nodes and the last step',
  ('tx "LOOP COUNT: " ++ decn (S n)', 'tx "LOOP COUNT: " ++ decn n'))
M('print-forgets', 'Trace.v', 'output_step', 'C95', 'every iteration is printed',
  ('| inl s\' => inl (s\', (S n, out ++ print_step s))', '| inl s\' => inl (s\', (S n, if n =? 0 then [] else out ++ print_step s))'))
M('print-shift-old', 'Trace.v', 'print_step', 'C95', 'a shift prints the state entered',
  ('[tx "  shifting " ++ decn q]', '[tx "  shifting " ++ decn top]'))
M('print-goto-underflow', 'Trace.v', 'print_step', 'C95', 'every reduction is printed with its rule',
  ('if length (ps_stack s) <? length (p_syms pr) then []', 'if length (ps_stack s) <=? S (length (p_syms pr)) then []'))
M('file-terminal-named', 'SymApi.v', 'input_is_terminal', 'C96', 'a name does not change whether a symbol is a terminal',
  ('| INamed _ ty => input_is_terminal ty | INon _ => false', '| INamed _ _ => false | INon _ => false'))
M('file-nonterminal-name', 'SymApi.v', 'input_as_non_terminal', 'C96', 'the name of a nonterminal is not the name put on it',
  ('match x with INamed _ ty => input_as_non_terminal ty', 'match x with INamed (Some n) (INon _) => Some n | INamed _ ty => input_as_non_terminal ty'))
M('file-def-index', 'SymApi.v', 'to_token_def', 'C96', 'the definition has the number of the token',
  ('| SReg r => Some (TokenDef r true (Some i))', '| SReg r => Some (TokenDef r true None)'))
M('file-def-named', 'SymApi.v', 'input_token_def_with_regex', 'C96', 'a named symbol is defined as what it names',
  ('| INamed _ ty => input_token_def_with_regex ty i', '| INamed _ ty => input_token_def_with_regex ty (S i)'))
# --- lalr.rs: the height of the stack
M('height-shift-twice', 'Parse.v', 'parse_step', 'C97', 'a shift makes the stack one higher',
  ("inl (PState (q :: ps_stack s) i' a' (ps_trace s))", "inl (PState (q :: q :: ps_stack s) i' a' (ps_trace s))"))
M('height-unit-kept', 'Parse.v', 'parse_step', 'C97', 'a rule with one symbol leaves the stack as high as it was',
  ('let st := skipn (length (p_syms pr)) (ps_stack s) in', 'let st := if length (p_syms pr) =? 1 then ps_stack s else skipn (length (p_syms pr)) (ps_stack s) in'))
M('height-bottom-twice', 'Parse.v', 'parse_init', 'C97', 'the stack starts with one entry',
  ('PState [0] 0', 'PState [0; 0] 0'))
M('height-left-kept', 'Parse.v', 'parse_step', 'C75', 'the stack of a left-linear grammar stays low',
  ('| Some q => inl (PState (q :: st) (ps_i s) (ps_a s) (ps_trace s ++ [p]))', '| Some q => inl (PState (if length (p_syms pr) <? 2 then q :: st else q :: top :: st) (ps_i s) (ps_a s) (ps_trace s ++ [p]))'))
