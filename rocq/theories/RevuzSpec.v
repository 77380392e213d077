(** Specification of heights and of minimal automata. *)
From Verif Require Import Base Graph Automaton AutomatonSpec.

(** [upath arc n u v]: a path of n arcs from u to v *)
Inductive upath (arc : nat -> nat -> Prop) : nat -> nat -> nat -> Prop :=
| upath_0 u : upath arc 0 u u
| upath_S n u v x : arc u v -> upath arc n v x -> upath arc (S n) u x.
Definition leaf (arc : nat -> nat -> Prop) (v : nat) : Prop := forall u, ~ arc v u.
(** the longest path from v to a leaf has n arcs *)
Definition height_is (arc : nat -> nat -> Prop) (v n : nat) : Prop :=
  (exists l, leaf arc l /\ upath arc n v l) /\ forall m l, leaf arc l -> upath arc m v l -> m <= n.
Definition acyclic (arc : nat -> nat -> Prop) : Prop := forall n v, ~ upath arc (S n) v v.

(** The arcs of an automaton, the words accepted from a state, and the words that can be read from a state *)
Definition aut_arc {A} (T : list (edge A)) (u v : nat) : Prop := exists a, In (Edge u v a) T.
Definition right {A} (T : list (edge A)) (final : nat -> bool) (q : nat) (w : list A) : Prop := exists r, path T q w r /\ final r = true.
Definition readable {A} (T : list (edge A)) (q : nat) (w : list A) : Prop := exists r, path T q w r.
(** The words accepted from a state of an IncidenceAutomaton *)
Definition accepted {A} (g : iaut A) (q : nat) (w : list A) : Prop := right (IA_edges g) (A_is_final (ia_base g)) q w.
(** The same words are accepted and the same words can be read from the two states. *)
Definition equiv_states {A} (g : iaut A) (x y : nat) : Prop :=
  forall w, (accepted g x w <-> accepted g y w) /\ (readable (IA_edges g) x w <-> readable (IA_edges g) y w).
