(** Model of the regular expressions of src/pybgl/shunting_yard_postfix.py (tokenizer_re),
    src/pybgl/thompson_compile_nfa.py (parsers, thompson_compile_nfa) and src/pybgl/regexp.py. *)
From Coq Require Import String.
From Verif Require Import Str Graph Automaton Nfa Thompson ShuntingYard.
Open Scope string_scope.
Open Scope nat_scope.
Open Scope list_scope.

(** ** tokenizer_re, shunting_yard_postfix.py:136-246, with cat = "." *)

(** MAP_OPERATORS_RE, shunting_yard_postfix.py:136-144 *)
Definition map_operators_re : dict str Op :=
  [ (lit "*", mkOp 1 4 true); (lit "+", mkOp 1 4 true); (lit "?", mkOp 1 3 true);
    (lit ".", mkOp 2 2 true); (lit "|", mkOp 2 1 true) ].

(** the longest prefix of characters satisfying [p], and the rest (a greedy repetition of the module re, e.g. shunting_yard_postfix.py:151) *)
Fixpoint span (p : char -> bool) (s : str) : str * str :=
  match s with
  | [] => ([], [])
  | c :: s' => if p c then let '(u, v) := span p s' in (c :: u, v) else ([], s)
  end.
(** the rest after a greedy \s*, e.g. shunting_yard_postfix.py:151, thompson_compile_nfa.py:388, 393 *)
Definition skip_spaces (s : str) : str := snd (span isspace s).

(** \{\s*\d+(\s*,)?(\s*\d+)?\s*\} (shunting_yard_postfix.py:151) after its first character: the rest of the string after the match. The
    optional parts are tried greedily; giving back characters never allows another match. *)
Definition match_braces (s : str) : option str :=
  let '(d, s) := span isdigit (skip_spaces s) in
  match d with
  | [] => None
  | _ :: _ =>
      let s := match skip_spaces s with c :: s' => if eqb c (ch ",") then s' else c :: s' | [] => [] end in
      let '(_, s) := span isdigit (skip_spaces s) in
      match skip_spaces s with c :: s' => if eqb c (ch "}") then Some s' else None | [] => None end
  end.
(** \[([^]])*\] (shunting_yard_postfix.py:154) after its first character: number of characters up to the first closing bracket *)
Fixpoint match_bracket (s : str) : option nat :=
  match s with
  | [] => None
  | c :: s' => if eqb c (ch "]") then Some 1 else match match_bracket s' with Some n => Some (S n) | None => None end
  end.
(** The pattern made of RE_OPERATORS_RE, shunting_yard_postfix.py:146-157, 223: length of the match at the beginning of [s]. The alternatives
    begin with different characters, so that their order (that of a set) does not matter. *)
Definition match_re (s : str) : option nat :=
  match s with
  | [] => None
  | c :: s' =>
      if mem c (lit "*+?.|()") then Some 1
      else if eqb c (ch "{") then match match_braces s' with Some rest => Some (List.length s - List.length rest) | None => None end
      else if eqb c (ch "[") then match match_bracket s' with Some n => Some (S n) | None => None end
      else if eqb c (ch "\") then match s' with d :: _ => if mem d (lit "abdDfnrsStvwW*+?.|[](){}") then Some 2 else None | [] => None end
      else None
  end.

(** CatifyTokenizeVisitor with cat = ".", shunting_yard_postfix.py:160-201: the expression and prev_needs_cat *)
Definition cat_unmatched (s : list str * bool) (a : char) : list str * bool :=
  let '(expression, prev_needs_cat) := s in
  ((if prev_needs_cat then expression ++ [lit "."] else expression) ++ [[a]], true).
(** CatifyTokenizeVisitor.on_unmatched and on_matched, shunting_yard_postfix.py:180-201 *)
Definition catify_event (s : list str * bool) (e : event char) : list str * bool :=
  match e with
  | OnUnmatched unmatched _ _ => fold_left cat_unmatched unmatched s
  | OnMatched matched _ _ =>
      let '(expression, prev_needs_cat) := s in
      ((if prev_needs_cat && match matched with c :: _ => mem c (lit "[(\") | [] => false end
        then expression ++ [lit "."] else expression) ++ [matched], negb (mem matched [lit "("; lit "|"]))
  end.
(** catify and tokenizer_re, shunting_yard_postfix.py:204-246 *)
Definition tokenizer_re (s : str) : list str :=
  fst (fold_left catify_event (tokenize (finditer match_re s) s) ([], false)).

(** ** Parsers, thompson_compile_nfa.py:370-517 *)

(** int(s) on decimal digits (thompson_compile_nfa.py:391-400) *)
Definition int_of (s : str) : nat := fold_left (fun n c => 10 * n + N.to_nat (c - 48)) s 0.

(** parse_repetition, thompson_compile_nfa.py:370-403; both patterns are tried at the beginning of the string *)
Definition parse_repetition (s : str) : res (nat * option nat) :=
  match s with
  | c :: s =>
      if eqb c (ch "{") then
        let '(d1, s) := span isdigit (skip_spaces s) in
        match skip_spaces s with
        | c :: s =>
            if eqb c (ch "}") then match d1 with [] => Raise RuntimeError | _ => Ok (int_of d1, Some (int_of d1)) end
            else if eqb c (ch ",") then
              let '(d2, s) := span isdigit (skip_spaces s) in
              match skip_spaces s with
              | c :: _ =>
                  if eqb c (ch "}") then
                    let m := int_of d1 in
                    match d2 with
                    | [] => Ok (m, None)
                    | _ => if m <=? int_of d2 then Ok (m, Some (int_of d2)) else Raise ValueError
                    end
                  else Raise RuntimeError
              | [] => Raise RuntimeError
              end
            else Raise RuntimeError
        | [] => Raise RuntimeError
        end
      else Raise RuntimeError
  | [] => Raise RuntimeError
  end.

(** range(m, n + 1), as characters *)
Definition char_range (m n : char) : list char := map (fun k => (m + N.of_nat k)%N) (seq 0 (N.to_nat (n + 1 - m))).

(** string.printable (thompson_compile_nfa.py:19) *)
Definition default_alphabet : list char :=
  char_range 48%N 57%N ++ char_range 97%N 122%N ++ char_range 65%N 90%N ++
  char_range 33%N 47%N ++ char_range 58%N 64%N ++ char_range 91%N 96%N ++ char_range 123%N 126%N ++ [32; 9; 10; 13; 11; 12]%N.

(** The loop of parse_bracket, thompson_compile_nfa.py:439-460: [s] is what remains of the string, its last character being
    the closing bracket. [esc] is parse_escaped. *)
Fixpoint bracket_loop (esc : str -> res (list char)) (s : str) (last_non_hat : option char) (accepted : list char) : res (list char) :=
  match s with
  | a :: ((b :: s'') as s') =>
      let other :=
        if eqb a (ch "\") then rbind (esc [a; b]) (fun chars => bracket_loop esc s'' (Some a) (sunion accepted chars))
        else bracket_loop esc s' (Some a) (sadd a accepted) in
      match last_non_hat with
      | Some m =>
          if eqb a (ch "-") then
            if (b <? m)%N then Raise ValueError
            else bracket_loop esc s'' (Some a) (fold_left (fun acc c => sadd c acc) (char_range m b) accepted)
          else other
      | None => other
      end
  | _ => Ok accepted
  end.
(** parse_bracket, thompson_compile_nfa.py:406-461. The result is a set, in some order. *)
Definition parse_bracket_with (esc : str -> res (list char)) (s : str) (whole_alphabet : list char) : res (list char) :=
  let whole_alphabet := match whole_alphabet with [] => default_alphabet | _ => whole_alphabet end in
  match s with
  | [] => Raise IndexError
  | c0 :: s1 =>
      if negb (eqb c0 (ch "[") && eqb (last s c0) (ch "]")) then Raise ValueError
      else if List.length s <? 3 then Raise ValueError
      else
        let reverse := match s1 with c :: _ => eqb c (ch "^") | [] => false end in
        let body := if reverse then tl s1 else s1 in
        rbind (bracket_loop esc body None []) (fun accepted =>
        Ok (if reverse then sdiff (sof whole_alphabet) accepted else accepted))
  end.

(** MAP_ESCAPED_BRACKET and MAP_ESCAPED_SPECIAL, thompson_compile_nfa.py:464-483 *)
Definition map_escaped_bracket : dict str str :=
  [ (lit "\d", lit "[0-9]"); (lit "\D", lit "[^0-9]"); (lit "\s", lit "[ " ++ [9%N] ++ lit "]"); (lit "\S", lit "[^ " ++ [9%N] ++ lit "]");
    (lit "\w", lit "[0-9A-Za-z]"); (lit "\W", lit "[^0-9A-Za-z]") ].
(** MAP_ESCAPED_SPECIAL, thompson_compile_nfa.py:475-483 *)
Definition map_escaped_special : dict str char :=
  [ (lit "\a", 7%N); (lit "\b", 8%N); (lit "\f", 12%N); (lit "\n", 10%N); (lit "\r", 13%N); (lit "\t", 9%N); (lit "\v", 11%N) ].

(** parse_escaped, thompson_compile_nfa.py:486-517. The brackets of the table contain no escape sequence: the inner
    call of parse_bracket never calls parse_escaped. *)
Definition parse_escaped (s : str) (whole_alphabet : list char) : res (list char) :=
  match s with
  | [_; c] =>
      if mem s (map (fun c => [ch "\"; c]) (lit "+*?.|[](){}")) then Ok [c]
      else if mem s [lit "\A"; lit "\B"; lit "\Z"] then Raise ValueError
      else match dget map_escaped_special s with
           | Some a => Ok [a]
           | None => match dget map_escaped_bracket s with
                     | Some r => parse_bracket_with (fun _ => Raise ValueError) r whole_alphabet
                     | None => Raise ValueError
                     end
           end
  | [] | [_] => Raise IndexError
  | _ => Raise ValueError
  end.
(** parse_bracket calls parse_escaped without the alphabet (thompson_compile_nfa.py:454) *)
Definition parse_bracket (s : str) (whole_alphabet : list char) : res (list char) :=
  parse_bracket_with (fun s => parse_escaped s []) s whole_alphabet.

(** ** thompson_compile_nfa, thompson_compile_nfa.py:524-593 *)
(** EPSILON, nfa.py:18: the Greek letter *)
Definition epsilon : char := 949%N.

Section Compile.
  Notation frag := (nfa char * nat * nat)%type.
  (** the orders in which the sets of characters, and of states in repetition_range, are iterated *)
  Variables (ordc : set_order char) (ordn : set_order nat).
  Variable whole_alphabet : list char.

  (** ThompsonShuntingYardVisitor.on_push_output, thompson_compile_nfa.py:556-585; the deque has its right end first *)
  Definition on_push_output (nfas : list frag) (a : str) : res (list frag) :=
    if mem a [lit "."; lit "|"] then
      match nfas with
      | x2 :: x1 :: nfas => rbind (if eqb a (lit ".") then concatenation x1 x2 else alternation x1 x2) (fun x => Ok (x :: nfas))
      | _ => Raise IndexError
      end
    else if mem a [lit "?"; lit "*"; lit "+"] then
      match nfas with
      | x1 :: nfas => Ok ((if eqb a (lit "?") then zero_or_one x1 else if eqb a (lit "*") then zero_or_more x1 else one_or_more x1) :: nfas)
      | _ => Raise IndexError
      end
    else
      match a with
      | [] => Raise IndexError
      | c :: _ =>
          if eqb c (ch "{") then
            match nfas with
            | x1 :: nfas => rbind (parse_repetition a) (fun '(m, n) => rbind (repetition_range epsilon ordn x1 m n) (fun x => Ok (x :: nfas)))
            | _ => Raise IndexError
            end
          else if eqb c (ch "[") then rbind (parse_bracket a whole_alphabet) (fun chars => Ok (bracket epsilon (ordc 0 chars) :: nfas))
          else if eqb c (ch "\") then rbind (parse_escaped a whole_alphabet) (fun chars => Ok (bracket epsilon (ordc 0 chars) :: nfas))
          else
            (* literal(a): [a] is a single character, the only other tokens being unmatched parentheses *)
            Ok (literal epsilon c :: nfas)
      end.
  (** thompson_compile_nfa, thompson_compile_nfa.py:524-593 *)
  Definition thompson_compile_nfa (expression : str) : res frag :=
    match expression with
    | [] => Ok (N_set_final (N_init 1 [] epsilon) 0 true, 0, 0)
    | _ =>
        rbind (shunting_yard_postfix (lit "(") (lit ")") map_operators_re on_push_output (tokenizer_re expression) []) (fun nfas =>
        match nfas with [x] => Ok x | _ => Raise AssertionError end)
    end.

  (** compile_nfa and compile_dfa, regexp.py:13-47; moore_determination takes its own orders and its fuel *)
  Definition compile_nfa (regexp : str) : res (nfa char) := rbind (thompson_compile_nfa regexp) (fun x => Ok (fst (fst x))).
  (** compile_dfa, regexp.py:31-47 *)
  Definition compile_dfa (regexp : str) (complete : bool) (opop : set_order (list nat)) (osym : set_order char) (fuel : nat) :
      option (res (aut char)) :=
    match thompson_compile_nfa regexp with
    | Raise e => Some (Raise e)
    | Ok x => match moore_determination (fst (fst x)) complete opop osym fuel with
              | Some (d, Ok _) => Some (Ok d)
              | Some (_, Raise e) => Some (Raise e)
              | None => None
              end
    end.
End Compile.
