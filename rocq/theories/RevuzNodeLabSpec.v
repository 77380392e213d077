(** Specification of revuz_minimize with labels on the states of an IncidenceNodeAutomaton. *)
From Verif Require Import Base Graph Automaton AutomatonSpec RevuzSpec.

(** Every word read from x in g can be read from y in g', and leads to a state with the same label and the same final flag. *)
Definition nfollows {A L} (lab : nat -> L) (g g' : naut A) (x y : nat) : Prop :=
  forall w r, path (NA_edges g) x w r -> exists r', path (NA_edges g') y w r' /\ lab r' = lab r /\ na_final g' r' = na_final g r.
(** The state x of g and the state y of g' cannot be told apart by reading words, labels and final flags. *)
Definition nsame_behaviour {A L} (lab : nat -> L) (g g' : naut A) (x y : nat) : Prop := nfollows lab g g' x y /\ nfollows lab g' g y x.
