(** Model of src/pybgl/graph_view.py (GraphView) and src/pybgl/reverse.py. *)
From Verif Require Import Base Graph.

(** The part of the graph API used through a view: graph_view.py delegates to [self.g]
    (graph_view.py:49-56). [D] is the type of distinguishers. *)
Record api (E : Type) := Api {
  api_vertices : list nat;
  api_edges : list E;
  api_out_edges : nat -> list E;
  api_in_edges : nat -> list E;
  api_source : E -> nat;
  api_target : E -> nat }.
Arguments Api {E}.
Arguments api_vertices {E}. Arguments api_edges {E}. Arguments api_out_edges {E}.
Arguments api_in_edges {E}. Arguments api_source {E}. Arguments api_target {E}.

Section View.
  Context {E : Type}.

  (** GraphView, graph_view.py:12-47: the graph and two boolean property maps. *)
  Record view := View { vg : api E; vrel : nat -> bool; erel : E -> bool }.

  (** GraphView.__init__, graph_view.py:21-47: a missing map selects everything. *)
  Definition view_init (g : api E) (pv : option (nat -> bool)) (pe : option (E -> bool)) : view :=
    View g (match pv with Some f => f | None => fun _ => true end)
           (match pe with Some f => f | None => fun _ => true end).

  (** GraphView.__or__, graph_view.py:58-76. *)
  Definition view_or (a b : view) : view :=
    View (vg a) (fun v => vrel a v || vrel b v) (fun e => erel a e || erel b e).

  (** GraphView.__and__, graph_view.py:78-97. *)
  Definition view_and (a b : view) : view :=
    View (vg a) (fun v => vrel a v && vrel b v) (fun e => erel a e && erel b e).

  (** GraphView.__sub__, graph_view.py:99-124. Python precedence: [x and not y or (z)] is
      [(x and not y) or z]. *)
  Definition view_sub (a b : view) : view :=
    View (vg a) (fun v => vrel a v && negb (vrel b v))
      (fun e => (erel a e && negb (erel b e)) ||
                (negb (vrel b (api_source (vg a) e)) && negb (vrel b (api_target (vg a) e)))).

  (** The filter of graph_view.py:147-152, 165-170, 200-205. *)
  Definition view_keeps (w : view) (e : E) : bool :=
    erel w e && vrel w (api_source (vg w) e) && vrel w (api_target (vg w) e).

  (** graph_view.py:126-242. *)
  Definition view_vertices (w : view) : list nat := filter (vrel w) (api_vertices (vg w)).
  (** edges, graph_view.py:139-152. *)
  Definition view_edges (w : view) : list E := filter (view_keeps w) (api_edges (vg w)).
  (** out_edges, graph_view.py:154-170. *)
  Definition view_out_edges (w : view) (u : nat) : list E :=
    filter (view_keeps w) (api_out_edges (vg w) u).
  (** in_edges, graph_view.py:185-205. *)
  Definition view_in_edges (w : view) (u : nat) : list E :=
    filter (view_keeps w) (api_in_edges (vg w) u).
  (** out_degree, graph_view.py:172-183. *)
  Definition view_out_degree (w : view) (u : nat) : nat := length (view_out_edges w u).
  (** in_degree, graph_view.py:207-222. *)
  Definition view_in_degree (w : view) (u : nat) : nat := length (view_in_edges w u).
  (** num_vertices, graph_view.py:224-232. *)
  Definition view_num_vertices (w : view) : nat := length (view_vertices w).
  (** num_edges, graph_view.py:234-242. *)
  Definition view_num_edges (w : view) : nat := length (view_edges w).

  (** reverse_graph, reverse.py:10-27: swaps the (instance) attributes source/target and
      in_edges/out_edges. *)
  Definition reverse_graph (g : api E) : api E :=
    Api (api_vertices g) (api_edges g) (api_in_edges g) (api_out_edges g)
        (api_target g) (api_source g).
End View.

(** The API of the concrete classes. A plain DirectedGraph has no in_edges (graph.py:321 returns an
    exception object): it is given the empty list here and no statement uses it. *)
Definition IG_api (g : igraph) : api gedge :=
  Api (IG_vertices g) (IG_edges g) (IG_out_edges g) (IG_in_edges g) source target.
(** DirectedGraph, graph.py:208-216, 273-288, 338-351, 409-432. *)
Definition DG_api (g : graph) : api gedge :=
  Api (G_vertices g) (G_edges g) (G_out_edges g) (fun _ => []) source target.
(** UndirectedGraph, graph.py:208-216, 541-598, 409-432. *)
Definition UG_api (g : graph) : api gedge :=
  Api (G_vertices g) (UG_edges g) (G_out_edges g) (UG_in_edges g) source target.

(** reverse_dict, reverse.py:30-42: a dict comprehension inserting in iteration order. *)
Definition reverse_dict {K V} `{EqDec V} (d : dict K V) : dict V K :=
  fold_left (fun acc '(k, v) => dset acc v k) d [].

(** A GraphView has the methods of a graph: its own ones, and source and target of the graph, graph_view.py:49-56, 126-205. *)
Definition view_api {E} (w : @view E) : api E :=
  Api (view_vertices w) (view_edges w) (view_out_edges w) (view_in_edges w) (api_source (vg w)) (api_target (vg w)).
