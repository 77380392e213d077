(** The number of states of the automaton drawn for a regular expression. *)
From Verif Require Import Str Regexp RegexpSpec.

(** Two states for a character or a class; two more for |, * and +; none for ? and for the concatenation; a repetition
    takes as many copies of its operand as its largest bound, and one state more when it may be skipped entirely. *)
Fixpoint states (r : rexp) : nat :=
  match r with
  | Chr _ | Cls _ _ | Esc _ => 2
  | Cat a b => states a + states b
  | Alt a b => states a + states b + 2
  | Star x | Plus x => states x + 2
  | Opt x | Grp x => states x
  | Rep x b =>
      match bmin b, bmax b with
      | 0, Some 1 => states x
      | 0, Some n => 1 + n * states x
      | _, Some n => n * states x
      | m, None => Nat.max 1 m * states x + 2
      end
  end.

(** x{0} and x{0,0} are applied only to expressions whose automaton begins at the state 0 *)
Fixpoint zero_repeats_ok (r : rexp) : bool :=
  match r with
  | Chr _ | Cls _ _ | Esc _ => true
  | Cat a b | Alt a b => zero_repeats_ok a && zero_repeats_ok b
  | Star x | Plus x | Opt x | Grp x => zero_repeats_ok x
  | Rep x b => zero_repeats_ok x && match bmax b with Some 0 => starts0 x | _ => true end
  end.

(** no {..} *)
Fixpoint without_bounds (r : rexp) : bool :=
  match r with
  | Chr _ | Cls _ _ | Esc _ => true
  | Cat a b | Alt a b => without_bounds a && without_bounds b
  | Star x | Plus x | Opt x | Grp x => without_bounds x
  | Rep _ _ => false
  end.
