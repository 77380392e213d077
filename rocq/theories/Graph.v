(** Model of src/pybgl/graph.py (Graph, DirectedGraph, UndirectedGraph) and
    src/pybgl/incidence_graph.py (IncidenceGraph).

    A mutating method is a function [state -> args -> state * res out]: the state is the one
    observable after the call, also when the call raises. Vertices are natural numbers. *)
From Verif Require Import Base.

(** EdgeDescriptor, graph.py:38-55; equality is component-wise (graph.py:86-103). The type of
    the distinguisher is a parameter (an integer for graphs, a label for automata). *)
Record edge (D : Type) := Edge { source : nat; target : nat; distinguisher : D }.
Arguments Edge {D} source target distinguisher.
Arguments source {D} e.
Arguments target {D} e.
Arguments distinguisher {D} e.

(** EdgeDescriptor.__eq__, graph.py:86-102 *)
#[global] Instance EqDec_edge {D} `{EqDec D} : EqDec (edge D).
Proof. intros x y. unfold EqDec in *. decide equality; apply Nat.eq_dec. Defined.

Notation gedge := (edge nat).

(** [self.adjacencies]: source -> target -> set of distinguishers (graph.py:151). *)
Definition adj := dict nat (dict nat (list nat)).

(** Graph, graph.py:134-153. The [directed] flag is the choice between the [DG_]/[UG_] methods. *)
Record graph := mkGraph { last_vertex_id : nat; adjacencies : adj }.

(** Graph.add_vertex, graph.py:155-165. *)
Definition G_add_vertex (g : graph) : graph * res nat :=
  let u := last_vertex_id g in
  (mkGraph (S u) (dset (adjacencies g) u []), Ok u).

(** The loop of Graph.__init__, graph.py:152-153. *)
Fixpoint G_add_vertices (n : nat) (g : graph) : graph :=
  match n with O => g | S n' => G_add_vertices n' (fst (G_add_vertex g)) end.

(** Graph.__init__, graph.py:139-153. *)
Definition G_init (num_vertices : nat) : graph := G_add_vertices num_vertices (mkGraph 0 []).

(** Graph.vertices, graph.py:208-216. *)
Definition G_vertices (g : graph) : list nat := dkeys (adjacencies g).

(** [max(s)] of a non-empty set of integers (graph.py:239). *)
Definition max_set (s : list nat) : nat := fold_right Nat.max 0 s.

(** Graph.add_edge, graph.py:218-241. [self.adjacencies[u]] raises KeyError if [u] is missing;
    the target is not checked. The Python code mutates the inner dict/set in place: here the
    updated inner value is stored back. *)
Definition G_add_edge (g : graph) (u v : nat) : graph * res (gedge * bool) :=
  match dget (adjacencies g) u with
  | None => (g, Raise KeyError)
  | Some u_adjs =>
      let '(n, s') :=
        match dget u_adjs v with
        | None => (0, [0])
        | Some s =>
            let n := if length s =? 0 then 0 else max_set s + 1 in
            (n, sadd n s)
        end in
      (mkGraph (last_vertex_id g) (dset (adjacencies g) u (dset u_adjs v s')),
       Ok (Edge u v n, true))
  end.

(** The body shared by Graph.remove_edge (graph.py:243-262) and by the second half of
    IncidenceGraph.remove_edge (incidence_graph.py:59-69) on an adjacency dictionary [m]:
    [adjs_u = m[u]; s = adjs_u[v]; if n in s: s.remove(n); if s == set(): del adjs_u[v]]. *)
Definition adj_remove (m : adj) (u v n : nat) : adj * res unit :=
  match dget m u with
  | None => (m, Raise KeyError)
  | Some adjs_u =>
      match dget adjs_u v with
      | None => (m, Raise KeyError)
      | Some s =>
          if mem n s then
            let s' := srem n s in
            (dset m u (match s' with [] => ddel adjs_u v | _ => dset adjs_u v s' end), Ok tt)
          else (m, Ok tt)
      end
  end.

(** Graph.remove_edge, graph.py:243-262. *)
Definition G_remove_edge (g : graph) (e : gedge) : graph * res unit :=
  let '(m, r) := adj_remove (adjacencies g) (source e) (target e) (distinguisher e) in
  (mkGraph (last_vertex_id g) m, r).

(** Edges leaving [u] stored in [adjs]: the generator of graph.py:284-288. *)
Definition star (u : nat) (adjs : dict nat (list nat)) : list gedge :=
  flat_map (fun '(v, s) => map (fun n => Edge u v n) s) adjs.

(** Graph.out_edges, graph.py:273-288; UndirectedGraph.out_edges, graph.py:541-558 (same body). *)
Definition G_out_edges (g : graph) (u : nat) : list gedge :=
  match dget (adjacencies g) u with
  | None => []
  | Some adjs => star u adjs
  end.

(** Graph.edges, graph.py:338-351. *)
Definition G_edges (g : graph) : list gedge :=
  flat_map (fun '(u, vs) => star u vs) (adjacencies g).

(** UndirectedGraph.edges, graph.py:588-601. *)
Definition UG_edges (g : graph) : list gedge :=
  filter (fun e => source e <=? target e) (G_edges g).

(** Graph.edge, graph.py:353-373 (out_edges has the same body in both classes). *)
Definition G_edge (g : graph) (u v : nat) : option gedge * bool :=
  match sof (filter (fun e => target e =? v) (G_out_edges g u)) with
  | [e] => (Some e, true)
  | _ => (None, false)
  end.

(** Graph.remove_vertex, graph.py:177-197, parametrised by the virtual methods [edges] and
    [remove_edge]. *)
Definition remove_vertex_with (edges_m : graph -> list gedge)
    (remove_edge_m : graph -> gedge -> graph * res unit) (g : graph) (u : nat)
    : graph * res unit :=
  let in_step (g : graph) (e : gedge) := if u =? target e then remove_edge_m g e else (g, Ok tt) in
  match foreach in_step g (edges_m g) with
  | (g1, Raise ex) => (g1, Raise ex)
  | (g1, Ok _) =>
      match foreach remove_edge_m g1 (G_out_edges g1 u) with
      | (g2, Raise ex) => (g2, Raise ex)
      | (g2, Ok _) =>
          if dmem (adjacencies g2) u
          then (mkGraph (last_vertex_id g2) (ddel (adjacencies g2) u), Ok tt)
          else (g2, Raise KeyError)
      end
  end.

(** Graph.clear, graph.py:199-206, parametrised by the virtual method [remove_vertex]. *)
Definition clear_with (remove_vertex_m : graph -> nat -> graph * res unit) (g : graph)
    : graph * res unit :=
  let g0 := mkGraph 0 (adjacencies g) in
  foreach remove_vertex_m g0 (G_vertices g0).

(** DirectedGraph, graph.py:482-494: every method is inherited from Graph. *)
Definition DG_remove_vertex := remove_vertex_with G_edges G_remove_edge.
(** DirectedGraph, graph.py:482-494: clear (graph.py:199-206) is inherited from Graph. *)
Definition DG_clear := clear_with DG_remove_vertex.

(** UndirectedGraph.add_edge, graph.py:518-539: the forward half is already stored when
    [self.adjacencies[v]] raises KeyError. *)
Definition UG_add_edge (g : graph) (u0 v0 : nat) : graph * res (gedge * bool) :=
  let u := Nat.min u0 v0 in
  let v := Nat.max u0 v0 in
  match G_add_edge g u v with
  | (g1, Raise ex) => (g1, Raise ex)
  | (g1, Ok (e, added)) =>
      let n := distinguisher e in
      match dget (adjacencies g1) v with
      | None => (g1, Raise KeyError)
      | Some v_adjs =>
          let s := match dget v_adjs u with None => [] | Some s => s end in
          (mkGraph (last_vertex_id g1) (dset (adjacencies g1) v (dset v_adjs u (sadd n s))),
           Ok (e, added))
      end
  end.

(** UndirectedGraph.remove_edge, graph.py:560-573 ([set.remove] raises KeyError when absent). *)
Definition UG_remove_edge (g : graph) (e : gedge) : graph * res unit :=
  match G_remove_edge g e with
  | (g1, Raise ex) => (g1, Raise ex)
  | (g1, Ok _) =>
      let u := source e in
      let v := target e in
      if u =? v then (g1, Ok tt)
      else
        match dget (adjacencies g1) v with
        | None => (g1, Raise KeyError)
        | Some v_adjs =>
            match dget v_adjs u with
            | None => (g1, Raise KeyError)
            | Some s =>
                if mem (distinguisher e) s
                then (mkGraph (last_vertex_id g1)
                        (dset (adjacencies g1) v (dset v_adjs u (srem (distinguisher e) s))), Ok tt)
                else (g1, Raise KeyError)
            end
        end
  end.

(** remove_vertex (graph.py:177-197) is inherited from Graph; it calls the methods of UndirectedGraph. *)
Definition UG_remove_vertex := remove_vertex_with UG_edges UG_remove_edge.
(** clear (graph.py:199-206) is inherited from Graph. *)
Definition UG_clear := clear_with UG_remove_vertex.

(** UndirectedGraph.in_edges, graph.py:575-586. *)
Definition UG_in_edges := G_out_edges.

(** Graph.num_vertices, num_edges, out_degree, has_vertex, has_edge:
    graph.py:167-175, 264-271, 290-301, 385-407. *)
Definition G_num_vertices (g : graph) : nat := length (G_vertices g).
(** Graph.num_edges, graph.py:264-271. *)
Definition DG_num_edges (g : graph) : nat := length (G_edges g).
(** Graph.num_edges on an UndirectedGraph, graph.py:264-271. *)
Definition UG_num_edges (g : graph) : nat := length (UG_edges g).
(** Graph.out_degree, graph.py:290-301. *)
Definition G_out_degree (g : graph) (u : nat) : nat := length (G_out_edges g u).
(** Graph.has_vertex, graph.py:385-395. *)
Definition G_has_vertex (g : graph) : bool :=
  match G_vertices g with [] => false | _ => true end.
(** Graph.has_edge, graph.py:397-407. *)
Definition DG_has_edge (g : graph) : bool := match G_edges g with [] => false | _ => true end.
(** Graph.has_edge on an UndirectedGraph, graph.py:397-407. *)
Definition UG_has_edge (g : graph) : bool := match UG_edges g with [] => false | _ => true end.

(** IncidenceGraph, incidence_graph.py:11-26: a DirectedGraph plus [in_adjacencies]
    (target -> source -> set of distinguishers). *)
Record igraph := mkIGraph { ig_base : graph; in_adjacencies : adj }.

(** IncidenceGraph.add_vertex, incidence_graph.py:28-32. *)
Definition IG_add_vertex (g : igraph) : igraph * res nat :=
  match G_add_vertex (ig_base g) with
  | (b, Raise ex) => (mkIGraph b (in_adjacencies g), Raise ex)
  | (b, Ok u) => (mkIGraph b (dset (in_adjacencies g) u []), Ok u)
  end.

(** The loop of IncidenceGraph.__init__, incidence_graph.py:18-26. *)
Fixpoint IG_add_vertices (n : nat) (g : igraph) : igraph :=
  match n with O => g | S n' => IG_add_vertices n' (fst (IG_add_vertex g)) end.

(** IncidenceGraph.__init__, incidence_graph.py:18-26. *)
Definition IG_init (num_vertices : nat) : igraph :=
  IG_add_vertices num_vertices (mkIGraph (mkGraph 0 []) []).

(** IncidenceGraph.add_edge, incidence_graph.py:34-45: the forward half is already stored when
    [self.in_adjacencies[v]] raises KeyError. *)
Definition IG_add_edge (g : igraph) (u v : nat) : igraph * res (gedge * bool) :=
  match G_add_edge (ig_base g) u v with
  | (b, Raise ex) => (mkIGraph b (in_adjacencies g), Raise ex)
  | (b, Ok (e, added)) =>
      match dget (in_adjacencies g) v with
      | None => (mkIGraph b (in_adjacencies g), Raise KeyError)
      | Some v_in_adjs =>
          let n := distinguisher e in
          let s := match dget v_in_adjs u with None => [n] | Some s => sadd n s end in
          (mkIGraph b (dset (in_adjacencies g) v (dset v_in_adjs u s)), Ok (e, added))
      end
  end.

(** IncidenceGraph.remove_edge, incidence_graph.py:56-69. *)
Definition IG_remove_edge (g : igraph) (e : gedge) : igraph * res unit :=
  match G_remove_edge (ig_base g) e with
  | (b, Raise ex) => (mkIGraph b (in_adjacencies g), Raise ex)
  | (b, Ok _) =>
      let '(m, r) := adj_remove (in_adjacencies g) (target e) (source e) (distinguisher e) in
      (mkIGraph b m, r)
  end.

(** IncidenceGraph.in_edges, incidence_graph.py:71-77. *)
Definition IG_in_edges (g : igraph) (v : nat) : list gedge :=
  match dget (in_adjacencies g) v with
  | None => []
  | Some adjs => flat_map (fun '(u, s) => map (fun n => Edge u v n) s) adjs
  end.

(** Inherited readers (graph.py:208-216). *)
Definition IG_vertices (g : igraph) := G_vertices (ig_base g).
(** Graph.edges, graph.py:338-351, inherited. *)
Definition IG_edges (g : igraph) := G_edges (ig_base g).
(** Graph.out_edges, graph.py:273-288, inherited. *)
Definition IG_out_edges (g : igraph) (u : nat) := G_out_edges (ig_base g) u.
(** Graph.in_degree, graph.py:325-336, inherited. *)
Definition IG_in_degree (g : igraph) (u : nat) : nat := length (IG_in_edges g u).

(** IncidenceGraph.remove_vertex, incidence_graph.py:47-54. *)
Definition IG_remove_vertex (g : igraph) (u : nat) : igraph * res unit :=
  match foreach IG_remove_edge g (IG_in_edges g u) with
  | (g1, Raise ex) => (g1, Raise ex)
  | (g1, Ok _) =>
      match foreach IG_remove_edge g1 (IG_out_edges g1 u) with
      | (g2, Raise ex) => (g2, Raise ex)
      | (g2, Ok _) =>
          let b := ig_base g2 in
          if dmem (adjacencies b) u then
            let b' := mkGraph (last_vertex_id b) (ddel (adjacencies b) u) in
            if dmem (in_adjacencies g2) u
            then (mkIGraph b' (ddel (in_adjacencies g2) u), Ok tt)
            else (mkIGraph b' (in_adjacencies g2), Raise KeyError)
          else (g2, Raise KeyError)
      end
  end.

(** Graph.clear on an IncidenceGraph, graph.py:199-206. *)
Definition IG_clear (g : igraph) : igraph * res unit :=
  let g0 := mkIGraph (mkGraph 0 (adjacencies (ig_base g))) (in_adjacencies g) in
  foreach IG_remove_vertex g0 (IG_vertices g0).

(** One call of the mutating API (add_vertex, add_edge, remove_edge, remove_vertex and clear of graph.py:155-262, 518-573 and incidence_graph.py:28-69). *)
Inductive gop :=
| OpAddVertex
| OpAddEdge (u v : nat)
| OpRemoveEdge (e : gedge)
| OpRemoveVertex (u : nat)
| OpClear.

(** What the caller receives (graph.py:155-262: a vertex, a pair of an edge and a Boolean, None, or an exception). *)
Inductive gout :=
| OutVertex (u : nat)
| OutEdge (e : gedge) (added : bool)
| OutUnit
| OutRaise (e : exn).

(** The result of add_vertex, graph.py:155-165. *)
Definition out_vertex (r : res nat) := match r with Ok u => OutVertex u | Raise e => OutRaise e end.
(** The result of add_edge, graph.py:218-241. *)
Definition out_edge (r : res (gedge * bool)) :=
  match r with Ok (e, b) => OutEdge e b | Raise e => OutRaise e end.
(** The result of remove_edge, remove_vertex and clear, graph.py:177-206, 243-262. *)
Definition out_unit (r : res unit) := match r with Ok _ => OutUnit | Raise e => OutRaise e end.

(** Calling one method of each class (DirectedGraph, graph.py:155-262, 482-494). *)
Definition DG_call (g : graph) (op : gop) : graph * gout :=
  match op with
  | OpAddVertex => let '(g', r) := G_add_vertex g in (g', out_vertex r)
  | OpAddEdge u v => let '(g', r) := G_add_edge g u v in (g', out_edge r)
  | OpRemoveEdge e => let '(g', r) := G_remove_edge g e in (g', out_unit r)
  | OpRemoveVertex u => let '(g', r) := DG_remove_vertex g u in (g', out_unit r)
  | OpClear => let '(g', r) := DG_clear g in (g', out_unit r)
  end.

(** A method of UndirectedGraph, graph.py:504-598. *)
Definition UG_call (g : graph) (op : gop) : graph * gout :=
  match op with
  | OpAddVertex => let '(g', r) := G_add_vertex g in (g', out_vertex r)
  | OpAddEdge u v => let '(g', r) := UG_add_edge g u v in (g', out_edge r)
  | OpRemoveEdge e => let '(g', r) := UG_remove_edge g e in (g', out_unit r)
  | OpRemoveVertex u => let '(g', r) := UG_remove_vertex g u in (g', out_unit r)
  | OpClear => let '(g', r) := UG_clear g in (g', out_unit r)
  end.

(** A method of IncidenceGraph, incidence_graph.py:11-77. *)
Definition IG_call (g : igraph) (op : gop) : igraph * gout :=
  match op with
  | OpAddVertex => let '(g', r) := IG_add_vertex g in (g', out_vertex r)
  | OpAddEdge u v => let '(g', r) := IG_add_edge g u v in (g', out_edge r)
  | OpRemoveEdge e => let '(g', r) := IG_remove_edge g e in (g', out_unit r)
  | OpRemoveVertex u => let '(g', r) := IG_remove_vertex g u in (g', out_unit r)
  | OpClear => let '(g', r) := IG_clear g in (g', out_unit r)
  end.

(** A program: a sequence of calls, with the list of their results (no counterpart in /repo: the callers of graph.py:155-262). *)
Fixpoint run {S} (call : S -> gop -> S * gout) (s : S) (ops : list gop) : S * list gout :=
  match ops with
  | [] => (s, [])
  | op :: ops' =>
      let '(s1, o) := call s op in
      let '(s2, os) := run call s1 ops' in
      (s2, o :: os)
  end.
