(** Specification for dijkstra_shortest_paths with any weights, comparison, combination, visitor and initial maps. *)
From Verif Require Import Base Search Dijkstra DijkstraSpec.

Section S.
  Context {E D : Type} {EE : EqDec E} {ED : EqDec D}.
  (** the vertices examined and discovered, in the order of the calls received by the visitor *)
  Definition examined (log : list (devent E)) : list nat := flat_map (fun x => match x with DExamine v => [v] | _ => [] end) log.
  Definition discovered (log : list (devent E)) : list nat := flat_map (fun x => match x with DDiscover v => [v] | _ => [] end) log.
  Variables (out_edges : nat -> list E) (target : E -> nat) (pmap_eweight : E -> res D) (combine : D -> D -> D).
  (** [d] is the cost of the walk [p], starting with the distance [d0] *)
  Inductive costs (d0 : D) : list E -> D -> Prop :=
  | costs_nil : costs d0 [] d0
  | costs_snoc p d e x : costs d0 p d -> pmap_eweight e = Ok x -> costs d0 (p ++ [e]) (combine d x).
  (** the distances after the initialization: those given by the caller for what is not a vertex of the graph *)
  Definition first_distance (V : list nat) (zero infty : D) (dist : dict nat D) (s v : nat) : option D :=
    if mem v V then Some (if v =? s then zero else infty) else dget dist v.
End S.
