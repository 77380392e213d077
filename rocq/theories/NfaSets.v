(** Model of Nfa.is_epsilon_transition (src/pybgl/nfa.py). The other definitions are in Nfa.v. *)
From Verif Require Import Base Graph Automaton Nfa.

Section Sets.
  Context {A : Type} {EA : EqDec A}.
  (** Nfa.is_epsilon_transition, nfa.py:389-401, and the function of this name, nfa.py:417-430. [D]: a number or a set of numbers, see N_label. *)
  Definition N_is_epsilon_transition {D} (g : nfa A) (e : edge (A * D)) : bool := eqb (N_label e) (nf_eps g).
End Sets.
