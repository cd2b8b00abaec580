(** Model of /repo/src/lalr/item.rs: LR(1) items, closure, goto and the canonical collection. *)
From Verif Require Import Base Grammar First.

(** item.rs:29 [Item]: production index and dot. *)
Notation item := (nat * nat)%type (only parsing).
(** item.rs:38 [ItemSet]: BTreeMap from items to lookahead sets. *)
Notation item_set := (list (nat * nat * list nat)) (only parsing).

(** item.rs:80-83 [dot_token]. *)
Definition dot_token (g : grammar) (it : item) : res (option sym) :=
  match get_production g (fst it) with
  | None => Panic PUnwrapNone
  | Some p => Ok (nth_error (p_syms p) (snd it))
  end.
(** item.rs:91-99 [dot_production_name]. *)
Definition dot_production_name (g : grammar) (it : item) : res (option str) :=
  let* o := dot_token g it in
  Ok (match o with Some x => as_non x | None => None end).
(** item.rs:71-74 [increment]. *)
Definition increment (it : item) : item := (fst it, S (snd it)).
(** item.rs:102-107 [iter] with 339-349: the symbols from the dot on. *)
Definition item_iter (g : grammar) (it : item) : list sym :=
  match get_production g (fst it) with
  | None => []
  | Some p => skipn (snd it) (p_syms p)
  end.

(** mod.rs:55 and item.rs:177-183 [initial]. *)
Definition EOF_IDX : nat := 0.
(** item.rs:177-183 [initial]. *)
Definition initial : item_set := [((0, 0), [EOF_IDX])].

(** item.rs:234-246: the additions one lookahead causes for one production. *)
Definition additions_la (g : grammar) (it : item) (pi : nat) (la : nat) : res (list (item * nat)) :=
  match get_token g la with
  | None => Panic PUnwrapNone
  | Some a =>
      let* ts := first g (item_iter g (increment it) ++ [a]) in
      mapM (fun t => match get_token_idx g t with
                     | None => Panic PUnwrapNone
                     | Some k => Ok ((pi, 0), k)
                     end) ts
  end.

(** item.rs:225-248: all additions of one round, in order. *)
Definition additions_item (g : grammar) (e : item * list nat) : res (list (item * nat)) :=
  let '(it, las) := e in
  let* o := dot_production_name g it in
  match o with
  | None => Ok []
  | Some n =>
      let* ps := production_iter g n in
      let* ll := mapM (fun ip => let* l := mapM (additions_la g it (fst ip)) las in Ok (concat l)) ps in
      Ok (concat ll)
  end.
(** item.rs:224-249: the additions of one round, [to_be_added]. *)
Definition additions (g : grammar) (s : item_set) : res (list (item * nat)) :=
  let* ll := mapM (additions_item g) s in Ok (concat ll).

(** item.rs:252-262: insert one (item, lookahead) pair; the flag is [added]. *)
Definition is_insert (s : item_set) (it : item) (a : nat) : item_set :=
  map_alter it (fun o => match o with None => [a] | Some las => set_insert a las end) s.
(** item.rs:252-262: whether the pair is there already. *)
Definition is_mem (s : item_set) (it : item) (a : nat) : bool :=
  match map_get it s with None => false | Some las => set_mem a las end.
(** item.rs:252-262: one iteration of the loop. *)
Definition add_pair (st : item_set * bool) (p : item * nat) : item_set * bool :=
  let '(s, added) := st in
  (is_insert s (fst p) (snd p), if is_mem s (fst p) (snd p) then added else true).

(** item.rs:223-269: one round of the closure loop. *)
Definition closure_step (g : grammar) (s : item_set) : item_set + res item_set :=
  match additions g s with
  | Panic p => inr (Panic p)
  | Diverge => inr Diverge
  | Ok adds =>
      let '(s', added) := fold_left add_pair adds (s, false) in
      if added then inl s' else inr (Ok s')
  end.

(** item.rs:221-270 [closure].  Every round but the last adds a (production, token) pair; the
    fuel is proved sufficient. *)
Definition closure_bits (g : grammar) : nat :=
  N.size_nat (N.of_nat (length (g_prods g)) * N.of_nat (length (g_tokens g)) + 1).
(** item.rs:221-270 [closure]. *)
Definition closure (g : grammar) (s : item_set) : res item_set :=
  match run (closure_step g) (closure_bits g) s with
  | inl _ => Diverge
  | inr r => r
  end.

(** item.rs:274-293: the items moved over [x]. *)
Definition goto_kernel_step (g : grammar) (x : sym) (j : item_set) (e : item * list nat) : res item_set :=
  let '(it, las) := e in
  let* o := dot_token g it in
  match o with
  | None => Ok j
  | Some y => if eqb y x then Ok (fold_left (fun j a => is_insert j (increment it) a) las j) else Ok j
  end.
(** item.rs:273-300 [goto]. *)
Definition goto (g : grammar) (s : item_set) (x : sym) : res item_set :=
  let* j := foldM (goto_kernel_step g x) s [] in
  closure g j.

(** Equality and membership of item sets in an IndexSet (derived Eq, item.rs:37). *)
Definition is_index (sets : list item_set) (s : item_set) : option nat :=
  find_index (fun t => eqb t s) sets.
(** item.rs:203 [c.contains]. *)
Definition is_contains (sets : list item_set) (s : item_set) : bool :=
  match is_index sets s with Some _ => true | None => false end.
(** item.rs:214 [c.insert]. *)
Definition index_set_insert (sets : list item_set) (s : item_set) : list item_set :=
  if is_contains sets s then sets else sets ++ [s].

(** item.rs:199-206: the new sets found in one round, in the order they are pushed. *)
Definition items_new_of (g : grammar) (c : list item_set) (s : item_set) : res (list item_set) :=
  let* l := mapM (fun x => let* j := goto g s x in
                           Ok (if (match j with [] => false | _ => true end) && negb (is_contains c j)
                               then [j] else [])) (g_tokens g) in
  Ok (concat l).
(** item.rs:199-207: [temp] after the loops. *)
Definition items_new (g : grammar) (c : list item_set) : res (list item_set) :=
  let* l := mapM (items_new_of g c) c in Ok (concat l).

(** item.rs:198-216: one round; new sets are inserted in reverse order ([pop]). *)
Definition items_step (g : grammar) (c : list item_set) : list item_set + res (list item_set) :=
  match items_new g c with
  | Panic p => inr (Panic p)
  | Diverge => inr Diverge
  | Ok [] => inr (Ok c)
  | Ok temp => inl (fold_left index_set_insert (rev temp) c)
  end.

(** Number of (item, token) pairs of a grammar. Not in the code; for the fuel of item.rs:198-216. *)
Definition pairs_count (g : grammar) : nat :=
  list_sum (map (fun p => S (length (p_syms p))) (g_prods g)) * length (g_tokens g).

(** item.rs:186-219 [items].  Every round but the last adds a set of pairs; the fuel is proved
    sufficient. *)
Definition items (g : grammar) : res (list item_set) :=
  let* i0 := closure g initial in
  match run (items_step g) (S (pairs_count g)) [i0] with
  | inl _ => Diverge
  | inr r => r
  end.

(** item.rs:168-174 [union].  The assertion is a debug_assert: this models a debug build. *)
Definition union (s other : item_set) : res item_set :=
  if length s =? length other then
    mapM (fun e => match map_get (fst e) other with
                   | None => Panic PUnwrapNone
                   | Some las => Ok (fst e, set_extend las (snd e))
                   end) s
  else Panic PAssert.
