(** Specification of revuz_height and revuz_minimize on graphs with cycles. *)
From Verif Require Import Base Graph Automaton AutomatonSpec RevuzSpec RevuzNode RevuzNodeSpec.

(** Some path leads from v to a leaf. *)
Definition ends (arc : nat -> nat -> Prop) (v : nat) : Prop := exists n l, leaf arc l /\ upath arc n v l.
(** No vertex of a cycle leads to a leaf. An acyclic graph is such a graph. *)
Definition cycles_apart (arc : nat -> nat -> Prop) : Prop := forall n v, upath arc (S n) v v -> ~ ends arc v.
(** The same words are accepted, the same words can be read, and the same words lead to each state that leads to no leaf. *)
Definition twins {A} (g : iaut A) (x y : nat) : Prop :=
  equiv_states g x y /\ forall z, ~ ends (aut_arc (IA_edges g)) z -> forall w, path (IA_edges g) x w z <-> path (IA_edges g) y w z.
(** The same for an IncidenceNodeAutomaton: the symbols of the two states are equal too. *)
Definition ntwins {A} (g : naut A) (x y : nat) : Prop :=
  nequiv g x y /\ forall z, ~ ends (aut_arc (NA_edges g)) z -> forall w, path (NA_edges g) x w z <-> path (NA_edges g) y w z.
