(** Model of the histories of an IncidenceNodeAutomaton (incidence_node_automaton.py:17-72) with all the methods which
    change it: those of Automaton.v, and clear, set_initial and set_final, which are inherited. *)
From Verif Require Import Base Graph Automaton NodeAut.

Section INA.
  Context {A : Type} {EA : EqDec A}.
  (** Graph.clear, graph.py:199-206, with remove_vertex of incidence_node_automaton.py:45-65: the symbols, the initial and
      the final states are left as they are. *)
  Definition INA_clear (g : naut A) : naut A * res unit :=
    let g0 := mkNAut 0 (na_adj g) (na_q0 g) (na_final g) (na_symbol g) (na_pred g) in
    foreach INA_remove_vertex g0 (NA_vertices g0).
  (** one call, incidence_node_automaton.py:31-72, node_automaton.py:49-53, automaton.py:213-277, graph.py:199-206 *)
  Definition INA_vcall (g : naut A) (op : nvop A) : naut A * aout (option A) :=
    match op with
    | VAddVertex a => let '(g', r) := NA_add_vertex g a in (g', aout_vertex r)
    | VAddEdge q r => let '(g', x) := INA_add_edge g q r in (g', aout_edge x)
    | VRemoveEdge e => let '(g', r) := INA_remove_edge g e in (g', aout_unit r)
    | VRemoveVertex u => let '(g', r) := INA_remove_vertex g u in (g', aout_unit r)
    | VSetInitial q b => (NA_set_initial g q b, AOutUnit)
    | VSetFinal q b => (NA_set_final g q b, AOutUnit)
    | VClear => let '(g', r) := INA_clear g in (g', aout_unit r)
    end.
End INA.
