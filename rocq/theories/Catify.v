(** Model of catify with any concatenation operator, shunting_yard_postfix.py:160-246. *)
From Coq Require Import String.
From Verif Require Import Str Graph Automaton Nfa Thompson ShuntingYard Regexp.
Open Scope string_scope.
Open Scope nat_scope.
Open Scope list_scope.

(** CatifyTokenizeVisitor.on_unmatched, shunting_yard_postfix.py:179-189; the state is (expression, prev_needs_cat). *)
Definition on_unmatched (cat : option str) (s : list str * bool) (unmatched : str) : list str * bool :=
  match cat with
  | Some c =>
      fold_left (fun '((expression, prev_needs_cat) : list str * bool) (a : char) =>
        ((if prev_needs_cat then expression ++ [c] else expression) ++ [[a]], true)) unmatched s
  | None => (fst s ++ [unmatched], true)
  end.
(** CatifyTokenizeVisitor.on_matched, shunting_yard_postfix.py:191-201. [matched] is never empty (tokenize.py:71). *)
Definition on_matched (cat : option str) (s : list str * bool) (matched : str) : list str * bool :=
  let '(expression, prev_needs_cat) := s in
  (match cat with
   | Some c => if prev_needs_cat && match matched with d :: _ => mem d (lit "[(\") | [] => false end then expression ++ [c] else expression
   | None => expression
   end ++ [matched], negb (mem matched [lit "("; lit "|"])).
(** catify, shunting_yard_postfix.py:204-227 *)
Definition catify (s : str) (cat : option str) : list str :=
  fst (fold_left (fun st e => match e with OnUnmatched u _ _ => on_unmatched cat st u | OnMatched m _ _ => on_matched cat st m end)
    (tokenize (finditer match_re s) s) ([], false)).
