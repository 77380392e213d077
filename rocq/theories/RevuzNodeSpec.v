(** Specification of revuz_minimize on an IncidenceNodeAutomaton. *)
From Verif Require Import Base Graph Automaton AutomatonSpec RevuzSpec RevuzNode.

(** The words accepted from a state, the words that can be read from a state *)
Definition naccepted {A} (g : naut A) (q : nat) (w : list (option A)) : Prop := right (NA_edges g) (na_final g) q w.
(** Two states with the same symbol, from which the same words are accepted and the same words can be read *)
Definition nequiv {A} (g : naut A) (x y : nat) : Prop :=
  na_symbol g x = na_symbol g y /\ forall w, (naccepted g x w <-> naccepted g y w) /\ (readable (NA_edges g) x w <-> readable (NA_edges g) y w).
(** The calls of a history that change the graph; [ndisciplined] (AutomatonSpec.v) is a condition on these. *)
Fixpoint graph_calls {A} (ops : list (rop A)) : list (nop A) :=
  match ops with
  | [] => []
  | RCall op :: ops' => op :: graph_calls ops'
  | _ :: ops' => graph_calls ops'
  end.
Definition INA_history {A} {EA : EqDec A} (ops : list (rop A)) : naut A := fold_left INA_rcall ops NA_init.
