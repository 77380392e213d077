(** Model of make_incidence_automaton (incidence_automaton.py:96-113) and make_incidence_node_automaton
    (incidence_node_automaton.py:75-130): make_automaton and make_node_automaton with another [Constructor]. *)
From Verif Require Import Base Graph Automaton NodeAut.

Section MakeInc.
  Context {A N : Type} {EA : EqDec A} {EN : EqDec N}.

  (** the loop automaton.py:805-808, where [g.add_edge] is the method of IncidenceAutomaton *)
  Definition imake_edges (names : list N) (g : iaut A) (transitions : list (N * N * A)) : iaut A * res unit :=
    foreach (fun g '(qn, rn, a) =>
      match index_of names qn, index_of names rn with
      | Some q, Some r => match IA_add_edge g q r a with (g', Ok _) => (g', Ok tt) | (g', Raise e) => (g', Raise e) end
      | _, _ => (g, Raise KeyError)
      end) g transitions.

  (** automaton.py:790-816 with [Constructor=IncidenceAutomaton] (incidence_automaton.py:110-113). [set_initial] and
      [set_final] are those of Automaton. *)
  Definition make_incidence_automaton (sorted : list N -> list N) (transitions : list (N * N * A)) (q0n : N)
      (pmap_vfinal : N -> bool) : res (iaut A) :=
    let names := vertex_names sorted transitions in
    match imake_edges names (IA_init (length names)) transitions with
    | (_, Raise e) => Raise e
    | (g, Ok _) =>
        let finish (g : iaut A) :=
          Ok (fold_left (fun g q =>
                match nth_error names q with
                | Some qn => if pmap_vfinal qn then mkIAut (A_set_final (ia_base g) q true) (ia_in g) else g
                | None => g
                end) (IA_vertices g) g) in
        match IA_vertices g with
        | [] => finish g
        | _ =>
            match index_of names q0n with
            | None => Raise KeyError
            | Some q0 => finish (mkIAut (A_set_initial (ia_base g) (Some q0) true) (ia_in g))
            end
        end
    end.

  (** the loop node_automaton.py:329-332, where [g.add_edge] is the method of IncidenceNodeAutomaton *)
  Definition imake_node_edges (names : list N) (g : naut A) (transitions : list (N * N)) : naut A * res unit :=
    foreach (fun g '(qn, rn) =>
      match index_of names qn, index_of names rn with
      | Some q, Some r => match INA_add_edge g q r with (g', Ok _) => (g', Ok tt) | (g', Raise ex) => (g', Raise ex) end
      | _, _ => (g, Raise KeyError)
      end) g transitions.

  (** node_automaton.py:311-339 with [Constructor=IncidenceNodeAutomaton] (incidence_node_automaton.py:124-130);
      [add_vertex], [set_initial] and [set_final] are those of NodeAutomaton. *)
  Definition make_incidence_node_automaton (sorted : list N -> list N) (transitions : list (N * N))
      (pmap_vlabel : option (N -> option A)) (q0n : N) (pmap_vfinal : key N -> bool) : res (naut A) :=
    let names := node_names sorted transitions in
    match make_node_vertices pmap_vlabel pmap_vfinal NA_init names with
    | (_, Raise ex) => Raise ex
    | (g, Ok _) =>
        match imake_node_edges names g transitions with
        | (_, Raise ex) => Raise ex
        | (g, Ok _) =>
            match NA_vertices g with
            | [] => Ok g
            | _ => match index_of names q0n with
                   | None => Raise KeyError
                   | Some q0 => Ok (NA_set_initial g (Some q0) true)
                   end
            end
        end
    end.
End MakeInc.
