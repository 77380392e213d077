(** Specification of "the result does not depend on the order in which Python iterates a set". *)
From Verif Require Import Base Graph Automaton.

Section S.
  Context {A : Type} `{EqDec A}.
  (** The same automaton, state by state. The order of the lists may differ. *)
  Definition same_automaton (g g' : iaut A) : Prop :=
    A_initial (ia_base g) = A_initial (ia_base g') /\ (forall q, In q (IA_vertices g) <-> In q (IA_vertices g')) /\
    (forall q, In q (IA_vertices g) -> A_is_final (ia_base g) q = A_is_final (ia_base g') q) /\ forall e, In e (IA_edges g) <-> In e (IA_edges g').
  (** The same automaton up to the numbers of the states: a one-to-one map between the states follows the initial state,
      the final states and the transitions. *)
  Definition renamed (d d' : aut A) : Prop := exists f : nat -> nat,
    (forall q, In q (A_vertices d) -> In (f q) (A_vertices d')) /\ (forall q', In q' (A_vertices d') -> exists q, In q (A_vertices d) /\ f q = q') /\
    (forall p q, In p (A_vertices d) -> In q (A_vertices d) -> f p = f q -> p = q) /\
    A_initial d' = option_map f (A_initial d) /\ (forall q, In q (A_vertices d) -> A_is_final d' (f q) = A_is_final d q) /\
    forall q a, In q (A_vertices d) -> A_delta d' (f q) a = option_map f (A_delta d q a).
  (** The same words are accepted. *)
  Definition same_words_accepted (d d' : aut A) : Prop := forall w, A_accepts d w = A_accepts d' w.
End S.
