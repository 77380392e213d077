(** Model of src/pybgl/automaton_copy.py *)
From Verif Require Import Base Graph Automaton Search SearchUsers.

Section AutCopy.
  Context {A : Type} {EA : EqDec A}.
  Variable g : aut A.
  Variables (vrelevant : nat -> bool) (erelevant : edge A -> bool).
  (** callback_dup_vertex(u, g, u_dup, g_dup): it may modify g_dup. callback_dup_edge is in CopyCalls.v. *)
  Variable callback_dup_vertex : option (nat -> nat -> aut A -> aut A).
  (** g_dup, pmap_vertices, pmap_edges, dup_vertices *)
  (** The attributes of AutomatonCopyVisitor, automaton_copy.py:28-32 and graph_copy.py:22-78. *)
  Record acopying := ACopying { ac_dup : aut A; ac_vertices : dict nat nat; ac_edges : dict (edge A) (option (edge A)); ac_done : list nat }.

  (** DepthFirstSearchCopyVisitor.dup_vertex, graph_copy.py:80-93 *)
  Definition A_dup_vertex (u : nat) (st : acopying) : res (acopying * nat) :=
    match A_add_vertex (ac_dup st) with
    | (_, Raise x) => Raise x
    | (h, Ok u_dup) =>
        let h := match callback_dup_vertex with None => h | Some f => f u u_dup h end in
        Ok (ACopying h (dset (ac_vertices st) u u_dup) (ac_edges st) (sadd u (ac_done st)), u_dup)
    end.
  (** AutomatonCopyVisitor.examine_relevant_edge, automaton_copy.py:34-54. The edge that add_edge returns may be None. *)
  Definition A_copy_edge (e : edge A) (st : acopying) : res acopying :=
    let u := source e in
    let v := target e in
    let a := distinguisher e in
    match dget (ac_vertices st) u with
    | None => Raise KeyError
    | Some u_dup =>
        rbind
          (if mem v (ac_done st) then match dget (ac_vertices st) v with Some v_dup => Ok (st, v_dup) | None => Raise KeyError end
           else A_dup_vertex v st)
          (fun '(st, v_dup) =>
           match A_add_edge (ac_dup st) u_dup v_dup a with
           | (_, Raise x) => Raise x
           | (h, Ok (e_dup, _)) => Ok (ACopying h (ac_vertices st) (dset (ac_edges st) e e_dup) (ac_done st))
           end)
    end.
  (** start_vertex, graph_copy.py:95-97, and examine_edge of DepthFirstSearchExtractVisitor, graph_extract.py *)
  Definition A_copy_visitor (x : event (edge A)) (st : acopying) : res acopying :=
    match x with
    | Start s => rbind (A_dup_vertex s st) (fun '(st, _) => Ok st)
    | Examine e => if erelevant e && vrelevant (target e) then A_copy_edge e st else Ok st
    | _ => Ok st
    end.
  (** automaton_copy, automaton_copy.py:57-120. [pmap_vertices], [pmap_edges]: the contents of the maps, or None when they are omitted:
      make_assoc_property_map(dict()) then raises TypeError (property_map.py: AssocPropertyMap.__init__). *)
  Definition automaton_copy (fuel : nat) (s : nat) (g_dup : aut A) (pmap_vertices : option (dict nat nat)) (pmap_edges : option (dict (edge A) (option (edge A)))) : option (res acopying) :=
    match pmap_vertices, pmap_edges with
    | Some pv, Some pe =>
        result (fun x => x) (depth_first_search (A_out_edges g) target (fun e => erelevant e && vrelevant (target e)) A_copy_visitor fuel s [] (ACopying g_dup pv pe []))
    | _, _ => Some (Raise TypeError)
    end.
End AutCopy.
Arguments acopying : clear implicits.
Arguments ACopying {A}. Arguments ac_dup {A}. Arguments ac_vertices {A}. Arguments ac_edges {A}. Arguments ac_done {A}.
