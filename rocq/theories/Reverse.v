(** Model of src/pybgl/reverse.py (reverse_graph) on an object that is used afterwards. View.v describes the four methods
    which reverse_graph exchanges; here the object keeps its state, and the methods of graph.py and incidence_graph.py which
    call [self.source], [self.target], [self.in_edges] or [self.out_edges] find the exchanged ones. *)
From Verif Require Import Base Graph.

(** The methods bound to the attributes source and target of the object (graph.py:409-432). *)
Inductive end_method := MSource | MTarget.
(** The methods bound to the attributes in_edges and out_edges (graph.py:273-288, 541-586; incidence_graph.py:71-77). *)
Inductive star_method := MInEdges | MOutEdges.
(** What [getattr] finds for the four names, reverse.py:20-23: the method of the class, or the bound method stored by
    [setattr]. *)
Record attrs := Attrs { at_source : end_method; at_target : end_method; at_in : star_method; at_out : star_method }.
(** The attributes of a new object (no [setattr] yet, reverse.py:20-23). *)
Definition attrs_init : attrs := Attrs MSource MTarget MInEdges MOutEdges.
(** The two calls of swap, reverse.py:26-27. [assert g.in_edges] (reverse.py:25) holds for a bound method. *)
Definition attrs_reverse (at_ : attrs) : attrs := Attrs (at_target at_) (at_source at_) (at_out at_) (at_in at_).
(** Calling a method bound to source or target, graph.py:409-432. *)
Definition call_end (m : end_method) (e : gedge) : nat := match m with MSource => source e | MTarget => target e end.

(** ** IncidenceGraph *)

(** An IncidenceGraph and its attributes (incidence_graph.py:11-26, reverse.py:20-27). *)
Record robj := RObj { ro_graph : igraph; ro_attrs : attrs }.
(** Calling a method bound to in_edges or out_edges: incidence_graph.py:71-77 and graph.py:273-288 read the dictionaries. *)
Definition IG_call_star (g : igraph) (m : star_method) (u : nat) : list gedge :=
  match m with MInEdges => IG_in_edges g u | MOutEdges => IG_out_edges g u end.
(** g.source(e) and g.target(e), graph.py:409-432 through the attributes. *)
Definition R_source (o : robj) (e : gedge) : nat := call_end (at_source (ro_attrs o)) e.
(** g.target(e), graph.py:421-432. *)
Definition R_target (o : robj) (e : gedge) : nat := call_end (at_target (ro_attrs o)) e.
(** g.out_edges(u), graph.py:273-288. *)
Definition R_out_edges (o : robj) (u : nat) : list gedge := IG_call_star (ro_graph o) (at_out (ro_attrs o)) u.
(** g.in_edges(u), incidence_graph.py:71-77. *)
Definition R_in_edges (o : robj) (u : nat) : list gedge := IG_call_star (ro_graph o) (at_in (ro_attrs o)) u.
(** Graph.out_degree, graph.py:290-301: calls self.out_edges. *)
Definition R_out_degree (o : robj) (u : nat) : nat := length (R_out_edges o u).
(** Graph.in_degree, graph.py:325-336: calls self.in_edges. *)
Definition R_in_degree (o : robj) (u : nat) : nat := length (R_in_edges o u).
(** Graph.edge, graph.py:353-373: calls self.out_edges and self.target. *)
Definition R_edge (o : robj) (u v : nat) : option gedge * bool :=
  match sof (filter (fun e => R_target o e =? v) (R_out_edges o u)) with
  | [e] => (Some e, true)
  | _ => (None, false)
  end.
(** IncidenceGraph.remove_vertex, incidence_graph.py:47-54: calls self.in_edges and self.out_edges. remove_edge
    (incidence_graph.py:56-69) reads the fields of the edge. *)
Definition R_remove_vertex (at_ : attrs) (g : igraph) (u : nat) : igraph * res unit :=
  match foreach IG_remove_edge g (IG_call_star g (at_in at_) u) with
  | (g1, Raise ex) => (g1, Raise ex)
  | (g1, Ok _) =>
      match foreach IG_remove_edge g1 (IG_call_star g1 (at_out at_) u) with
      | (g2, Raise ex) => (g2, Raise ex)
      | (g2, Ok _) =>
          let b := ig_base g2 in
          if dmem (adjacencies b) u then
            let b' := mkGraph (last_vertex_id b) (ddel (adjacencies b) u) in
            if dmem (in_adjacencies g2) u
            then (mkIGraph b' (ddel (in_adjacencies g2) u), Ok tt)
            else (mkIGraph b' (in_adjacencies g2), Raise KeyError)
          else (g2, Raise KeyError)
      end
  end.
(** Graph.clear, graph.py:199-206: calls self.remove_vertex. *)
Definition R_clear (at_ : attrs) (g : igraph) : igraph * res unit :=
  let g0 := mkIGraph (mkGraph 0 (adjacencies (ig_base g))) (in_adjacencies g) in
  foreach (R_remove_vertex at_) g0 (IG_vertices g0).

(** A call of a method, or of reverse_graph (reverse.py:10-27). *)
Inductive rop := ROp (op : gop) | RReverse.
(** One call on an IncidenceGraph (incidence_graph.py:28-69, graph.py:199-206, reverse.py:10-27). add_vertex, add_edge and
    remove_edge call none of the four methods. *)
Definition R_call (o : robj) (op : rop) : robj * gout :=
  let g := ro_graph o in let at_ := ro_attrs o in
  match op with
  | RReverse => (RObj g (attrs_reverse at_), OutUnit)
  | ROp (OpRemoveVertex u) => let '(g', r) := R_remove_vertex at_ g u in (RObj g' at_, out_unit r)
  | ROp OpClear => let '(g', r) := R_clear at_ g in (RObj g' at_, out_unit r)
  | ROp op => let '(g', r) := IG_call g op in (RObj g' at_, r)
  end.
(** A sequence of calls (no counterpart in /repo: the callers of reverse.py:10-27). *)
Fixpoint rrun {S} (call : S -> rop -> S * gout) (s : S) (ops : list rop) : S * list gout :=
  match ops with
  | [] => (s, [])
  | op :: ops' =>
      let '(s1, o) := call s op in
      let '(s2, os) := rrun call s1 ops' in
      (s2, o :: os)
  end.
(** IncidenceGraph(n), incidence_graph.py:18-26. *)
Definition R_init (n : nat) : robj := RObj (IG_init n) attrs_init.

(** ** UndirectedGraph and DirectedGraph: reverse_graph accepts them, since [g.in_edges] is a bound method (reverse.py:25) *)

(** Calling a method bound to in_edges or out_edges on an UndirectedGraph: UndirectedGraph.in_edges calls self.out_edges
    (graph.py:575-586), out_edges reads the dictionary (graph.py:541-558). [fuel] bounds the depth of the calls: None when
    it does not suffice (Python raises RecursionError at its own limit). *)
Fixpoint UR_call_star (fuel : nat) (at_ : attrs) (g : graph) (m : star_method) (u : nat) : option (list gedge) :=
  match m with
  | MOutEdges => Some (G_out_edges g u)
  | MInEdges => match fuel with 0 => None | S fuel' => UR_call_star fuel' at_ g (at_out at_) u end
  end.
(** g.out_edges(u) on an UndirectedGraph, graph.py:541-558 through the attributes. *)
Definition UR_out_edges (fuel : nat) (at_ : attrs) (g : graph) (u : nat) := UR_call_star fuel at_ g (at_out at_) u.
(** g.in_edges(u) on an UndirectedGraph, graph.py:575-586. *)
Definition UR_in_edges (fuel : nat) (at_ : attrs) (g : graph) (u : nat) := UR_call_star fuel at_ g (at_in at_) u.
(** UndirectedGraph.remove_edge, graph.py:560-573: calls self.source and self.target after the edge is removed. *)
Definition UR_remove_edge (at_ : attrs) (g : graph) (e : gedge) : graph * res unit :=
  match G_remove_edge g e with
  | (g1, Raise ex) => (g1, Raise ex)
  | (g1, Ok _) =>
      let u := call_end (at_source at_) e in
      let v := call_end (at_target at_) e in
      if u =? v then (g1, Ok tt)
      else
        match dget (adjacencies g1) v with
        | None => (g1, Raise KeyError)
        | Some v_adjs =>
            match dget v_adjs u with
            | None => (g1, Raise KeyError)
            | Some s =>
                if mem (distinguisher e) s
                then (mkGraph (last_vertex_id g1) (dset (adjacencies g1) v (dset v_adjs u (srem (distinguisher e) s))), Ok tt)
                else (g1, Raise KeyError)
            end
        end
  end.
(** Iterating over the result of a method bound to in_edges or out_edges on a DirectedGraph: Graph.in_edges returns an
    exception instead of raising it (graph.py:303-323), and iterating over this object raises TypeError. *)
Definition DR_call_star (g : graph) (m : star_method) (u : nat) : res (list gedge) :=
  match m with MOutEdges => Ok (G_out_edges g u) | MInEdges => Raise TypeError end.
