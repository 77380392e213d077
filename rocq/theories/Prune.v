(** Model of src/pybgl/prune_incidence_automaton.py. *)
From Verif Require Import Base Graph Automaton Search View.

Section Prune.
  Context {A : Type} `{EqDec A}.
  Notation tedge := (edge A).

  (** The methods of an IncidenceAutomaton which reverse_graph swaps (reverse.py:24-27), and vertices. *)
  Definition IA_api (g : iaut A) : api tedge :=
    Api (IA_vertices g) (IA_edges g) (IA_out_edges g) (IA_in_edges g) source target.

  (** find_reachable_vertices, prune_incidence_automaton.py:15-28: the keys of the color map after the search. *)
  Definition find_reachable_vertices (fuel : nat) (g : api tedge) (sources : list nat) : option (list nat) :=
    match depth_first_search_graph (api_out_edges g) (api_target g) (fun _ => true) (fun _ (st : unit) => Ok st) fuel (api_vertices g) sources [] tt with
    | Some (Ok (c, _)) => Some (sof (dkeys c))
    | _ => None
    end.

  (** prune_incidence_automaton, prune_incidence_automaton.py:31-44. [ord] gives the order of iteration on the sets.
      Without initial state, the search starts at None, which has no out-edge, and finds None only. The second
      reverse_graph restores the four methods. *)
  Definition prune_incidence_automaton (fuel : nat) (ord : set_order nat) (g : iaut A) : option (iaut A * res unit) :=
    match (match A_initial (ia_base g) with Some q0 => find_reachable_vertices fuel (IA_api g) [q0] | None => Some [] end) with
    | None => None
    | Some reached =>
        match find_reachable_vertices fuel (reverse_graph (IA_api g)) (ord 0 (A_finals (ia_base g))) with
        | None => None
        | Some coreached =>
            let to_keep := sinter reached coreached in
            let to_remove := sdiff (sof (IA_vertices g)) to_keep in
            Some (foreach IA_remove_vertex g (ord 1 to_remove))
        end
    end.
End Prune.
