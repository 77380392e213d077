(** Model of re_escape, src/pybgl/shunting_yard_postfix.py:30-49. *)
From Coq Require Import String.
From Verif Require Import Str.
Open Scope string_scope.
Open Scope nat_scope.
Open Scope list_scope.

(** re_escape, shunting_yard_postfix.py:30-49 *)
Definition re_escape (s : str) : str :=
  flat_map (fun a => if negb (mem a (lit "|[]{}.+*?()^$\")) then [a] else ch "\" :: [a]) s.
