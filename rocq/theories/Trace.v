(** Model of what the parser prints while it parses: /repo/src/lalr.rs:90-157 and
    /repo/src/parser/mod.rs:261-271 and 308-326.  Nothing else of a parse is given to the user: the
    string returned is empty (lalr.rs:52 and 158). *)
From Coq Require Import Ascii String.
From Verif Require Import Base Text Dfa Lex Grammar First Item Table LexGrammar Parse Lalr.
Local Open Scope list_scope.

(** mod.rs:261-271 [Display for Symbol]: U+03B5 and U+FE69 for the last two. *)
Definition show_sym (x : sym) : str :=
  match x with SStr s | SNon s | SReg s => s | SEps => [949%N] | SEof => [65129%N] end.
(** mod.rs:317-324: the symbols, each but the last followed by a space. *)
Fixpoint show_body (last i : nat) (l : list sym) : str :=
  match l with
  | [] => []
  | x :: l' => show_sym x ++ (if last =? i then [] else [32%N]) ++ show_body last (S i) l'
  end.
(** mod.rs:310-326 [Debug for ProductionDebug]; the arrow is U+21D2. *)
Definition show_prod (p : production) : str :=
  p_name p ++ [32; 8658; 32; 32]%N ++ show_body (if length (p_syms p) =? 0 then 0 else length (p_syms p) - 1) 0 (p_syms p).

(** [{:?}] of the vector of states (lalr.rs:93), which ends with the top of the stack. *)
Definition show_stack (s : list nat) : str := tx "[" ++ join (tx ", ") (map decn (rev s)) ++ tx "]".

Section Print.
  Variables (g : grammar) (t : tables) (tokens : list nat).
  (** [{:?}] of the index and the token at a position (lalr.rs:94). *)
  Variable show_tok : nat -> str.

  (** lalr.rs:92-155: the lines one iteration prints. *)
  Definition print_step (s : pstate) : list str :=
    match ps_stack s with
    | [] => []
    | top :: _ =>
        (tx "STACK: " ++ show_stack (ps_stack s)) ::
        (tx "S=" ++ decn top ++ tx " TOKEN " ++ show_tok (ps_i s) ++ tx " i=" ++ decn (ps_i s)) ::
        match tbl_get (t_action t) top (ps_a s) with
        | Some (Shift q) => [tx "  shifting " ++ decn q]
        | Some (Reduce p) =>
            match get_production g p with
            | None => []
            | Some pr =>
                if length (ps_stack s) <? length (p_syms pr) then []
                else
                  (tx "  reducing by " ++ show_prod pr) ::
                  match skipn (length (p_syms pr)) (ps_stack s) with
                  | [] => []
                  | top' :: rest =>
                      match tbl_get (t_goto t) top' (p_name pr) with
                      | None => []
                      | Some q => [tx "  pushing (" ++ decn q ++ tx ") => STACK: " ++ show_stack (q :: top' :: rest)]
                      end
                  end
            end
        | Some Accept => [tx "Accepting!"]
        | None => []
        end
    end.

  (** lalr.rs:89-157: the loop with what it has printed, and its counter (an [i32], which wraps or
      panics after 2^31 iterations: C58). *)
  Definition output_step (e : pstate * (nat * list str)) : (pstate * (nat * list str)) + (res (list nat) * list str) :=
    let '(s, (n, out)) := e in
    match parse_step g t tokens s with
    | inl s' => inl (s', (S n, out ++ print_step s))
    | inr (Ok ps) => inr (Ok ps, out ++ print_step s ++ [tx "LOOP COUNT: " ++ decn (S n)])
    | inr r => inr (r, out ++ print_step s)
    end.

  (** lalr.rs:51-159 [parse_impl], from line 89 on: the answer and the lines.  The four tables
      printed before the loop (lalr.rs:75-87) are left out. *)
  Definition parse_output : option (res (list nat) * list str) :=
    match tokens with
    | [] => None
    | a :: _ =>
        match run output_step (parse_bits g tokens) (parse_init a, (0, [])) with
        | inl _ => None
        | inr r => Some r
        end
    end.
End Print.

(** lalr.rs:45-50 [parse]: the same for a text; [show conv] shows the tokens [conv]. *)
Definition lalr_output (show : list (token * nat) -> nat -> str) (l : lalr) (input : list N) : res (option (res (list nat) * list str)) :=
  let* ts := lex (l_lexer l) input in
  let* conv := convert_tokens (l_lexer l) ts in
  Ok (parse_output (l_grammar l) (l_tables l) (map snd conv) (show conv)).

(** [println!] of the lines (lalr.rs:93-157). *)
Definition printed (out : list str) : str := flat_map (fun l => l ++ [10%N]) out.
