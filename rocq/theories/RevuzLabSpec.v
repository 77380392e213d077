(** Specification of revuz_minimize with labels on the states. *)
From Verif Require Import Base Graph Automaton AutomatonSpec RevuzSpec.

(** Every word read from x can be read from y, and leads to a state with the same label and the same final flag. *)
Definition follows {A L} (lab : nat -> L) (g g' : iaut A) (x y : nat) : Prop :=
  forall w r, path (IA_edges g) x w r -> exists r', path (IA_edges g') y w r' /\ lab r' = lab r /\ A_is_final (ia_base g') r' = A_is_final (ia_base g) r.
(** The state x of g and the state y of g' cannot be told apart by reading words, labels and final flags. *)
Definition same_behaviour {A L} (lab : nat -> L) (g g' : iaut A) (x y : nat) : Prop := follows lab g g' x y /\ follows lab g' g y x.
(** The words that the labels of the transitions spell on the paths to a final state: [label] is the label of a transition *)
Inductive spelled {A L} (label : edge A -> L) (g : iaut A) : nat -> list L -> Prop :=
| sp_nil q : A_is_final (ia_base g) q = true -> spelled label g q []
| sp_cons e w : In e (IA_edges g) -> spelled label g (target e) w -> spelled label g (source e) (label e :: w).
