(** Model of the users of depth_first_search: src/pybgl/topological_sort.py, strong_components.py, cut.py,
    graph_extract.py, graph_copy.py. The graph is given by out_edges, source, target and vertices. *)
From Verif Require Import Base Graph Search.

(** an update of a defaultdict, read through a total function (e.g. strong_components.py:55-57) *)
Definition fset {X} (f : nat -> X) (k : nat) (v : X) : nat -> X := fun x => if eqb x k then v else f x.
(** the default if_push, depth_first_search.py:143-144 *)
Definition all_edges {E} (e : E) : bool := true.
(** the result of a function whose last statement uses a search, e.g. topological_sort.py:53-59 *)
Definition result {C S R} (f : S -> R) (o : option (res (C * S))) : option (res R) :=
  match o with
  | None => None
  | Some (Raise x) => Some (Raise x)
  | Some (Ok (_, s)) => Some (Ok (f s))
  end.

Section Users.
  Context {E : Type} {EE : EqDec E}.
  Variables (out_edges : nat -> list E) (source target : E -> nat) (vertices : list nat).

  (** TopologicalSortVisitor, topological_sort.py:16-31; the left end of the deque is the head of the list. *)
  Definition topo_visitor (x : event E) (stack : list nat) : res (list nat) :=
    match x with
    | Back _ => Raise RuntimeError
    | Finish u => Ok (u :: stack)
    | _ => Ok stack
    end.
  (** topological_sort, topological_sort.py:34-59. (When the given deque is empty, the result is another deque.) *)
  Definition topological_sort (fuel : nat) (stack : list nat) : option (res (list nat)) :=
    result (fun x => x) (depth_first_search_graph out_edges target all_edges topo_visitor fuel vertices [] [] stack).

  (** TarjanVisitor, strong_components.py:20-97. INFINITY is [None]. *)
  Record tarjan := Tarjan {
    t_total : nat; t_component : nat -> option nat; t_root : nat -> nat; t_discover_time : nat -> nat; t_stack : list nat; t_dfs_time : nat }.
  (** discover_min, strong_components.py:61-76 *)
  Definition discover_min (st : tarjan) (u v : nat) : nat := if t_discover_time st u <? t_discover_time st v then u else v.
  (** an update of pmap_root, strong_components.py:84-87 *)
  Definition set_root (st : tarjan) (u v : nat) : tarjan :=
    Tarjan (t_total st) (t_component st) (fset (t_root st) u v) (t_discover_time st) (t_stack st) (t_dfs_time st).
  (** strong_components.py:80-87 *)
  Definition tarjan_edges (u : nat) (l : list E) (st : tarjan) : tarjan :=
    fold_left (fun st e =>
      let v := target e in
      match t_component st v with
      | None => set_root st u (discover_min st (t_root st u) (t_root st v))
      | Some _ => st
      end) l st.
  (** strong_components.py:91-96; popleft on an empty deque raises *)
  Fixpoint tarjan_pop (u : nat) (stack : list nat) (st : tarjan) : res tarjan :=
    match stack with
    | [] => Raise IndexError
    | v :: stack' =>
        let st' := Tarjan (t_total st) (fset (t_component st) v (Some (t_total st))) (fset (t_root st) v u) (t_discover_time st) stack' (t_dfs_time st) in
        if eqb u v then Ok st' else tarjan_pop u stack' st'
    end.
  (** discover_vertex and finish_vertex, strong_components.py:53-59, 78-97 *)
  Definition tarjan_visitor (x : event E) (st : tarjan) : res tarjan :=
    match x with
    | Discover u =>
        Ok (Tarjan (t_total st) (fset (t_component st) u None) (fset (t_root st) u u) (fset (t_discover_time st) u (t_dfs_time st))
              (u :: t_stack st) (t_dfs_time st + 1))
    | Finish u =>
        let st := tarjan_edges u (out_edges u) st in
        if eqb (t_root st u) u then
          rbind (tarjan_pop u (t_stack st) st) (fun st =>
          Ok (Tarjan (t_total st + 1) (t_component st) (t_root st) (t_discover_time st) (t_stack st) (t_dfs_time st)))
        else Ok st
    | _ => Ok st
    end.
  (** strong_components, strong_components.py:100-147: the given property map at the end, and the result; the maps are
      defaultdict(int). *)
  Definition strong_components (fuel : nat) (component : nat -> option nat) : option (res ((nat -> option nat) * nat)) :=
    result (fun st => (t_component st, t_total st))
      (depth_first_search_graph out_edges target all_edges tarjan_visitor fuel vertices vertices []
         (Tarjan 0 component (fun _ => 0) (fun _ => 0) [] 0)).

  (** cut, cut.py:16-68: the state is (leaves, cutting_edges). LeavesVisitor, cut.py:29-38; IfPush, cut.py:40-49. *)
  Variable in_cut : E -> bool.
  (** LeavesVisitor and IfPush, cut.py:29-49 *)
  Definition cut_visitor (x : event E) (st : list nat * list E) : res (list nat * list E) :=
    let '(leaves, cutting_edges) := st in
    match x with
    | Examine e => Ok (srem (source e) leaves, cutting_edges)
    | Discover u => Ok (sadd u leaves, cutting_edges)
    | Ask e => Ok (leaves, if in_cut e then sadd e cutting_edges else cutting_edges)
    | _ => Ok st
    end.
  (** cut, cut.py:16-68 *)
  Definition cut (fuel : nat) (s : nat) : option (res (list nat)) :=
    result (fun '(leaves, cutting_edges) => sunion (sof (map target cutting_edges)) (sdiff leaves (sof (map source cutting_edges))))
      (depth_first_search out_edges target (fun e => negb (in_cut e)) cut_visitor fuel s [] ([], [])).

  (** DepthFirstSearchExtractVisitor, graph_extract.py:23-97: the state is the list of the calls to
      callback_vertex_extract and callback_edge_extract. *)
  Variables (vrelevant : nat -> bool) (erelevant : E -> bool).
  (** the two callbacks, graph_extract.py:66-97 *)
  Inductive callback := OnVertex (u : nat) | OnEdge (e : E).
  (** the methods of the visitor, graph_extract.py:66-97 *)
  Definition extract_visitor (x : event E) (st : list callback) : res (list callback) :=
    match x with
    | Discover u => Ok (st ++ [OnVertex u])
    | Examine e => Ok (if erelevant e && vrelevant (target e) then st ++ [OnEdge e] else st)
    | _ => Ok st
    end.
  (** graph_extract, graph_extract.py:101-147 *)
  Definition graph_extract (fuel : nat) (s : nat) : option (res (list callback)) :=
    result (fun x => x) (depth_first_search out_edges target (fun e => erelevant e && vrelevant (target e)) extract_visitor fuel s [] []).

  (** DepthFirstSearchCopyVisitor, graph_copy.py:17-112, without callbacks; the class of g_dup is given by its methods
      add_vertex and add_edge. The maps are defaultdict(None): reading a missing key raises KeyError. *)
  Context {G : Type}.
  Variables (add_vertex : G -> G * res nat) (add_edge : G -> nat -> nat -> G * res (gedge * bool)).
  (** the attributes of the visitor, graph_copy.py:22-78 *)
  Record copying := Copying { cp_dup : G; cp_vertices : dict nat nat; cp_edges : dict E gedge; cp_done : list nat }.
  (** dup_vertex, graph_copy.py:80-93 *)
  Definition dup_vertex (u : nat) (st : copying) : res (copying * nat) :=
    match add_vertex (cp_dup st) with
    | (_, Raise x) => Raise x
    | (g, Ok u_dup) => Ok (Copying g (dset (cp_vertices st) u u_dup) (cp_edges st) (sadd u (cp_done st)), u_dup)
    end.
  (** examine_relevant_edge, graph_copy.py:99-112 *)
  Definition copy_edge (e : E) (st : copying) : res copying :=
    match dget (cp_vertices st) (source e) with
    | None => Raise KeyError
    | Some u_dup =>
        let v := target e in
        rbind
          (if mem v (cp_done st) then match dget (cp_vertices st) v with Some v_dup => Ok (st, v_dup) | None => Raise KeyError end
           else dup_vertex v st)
          (fun '(st, v_dup) =>
           match add_edge (cp_dup st) u_dup v_dup with
           | (_, Raise x) => Raise x
           | (g, Ok (e_dup, _)) => Ok (Copying g (cp_vertices st) (dset (cp_edges st) e e_dup) (cp_done st))
           end)
    end.
  (** start_vertex and examine_edge, graph_copy.py:95-97, graph_extract.py:88-97 *)
  Definition copy_visitor (x : event E) (st : copying) : res copying :=
    match x with
    | Start s => rbind (dup_vertex s st) (fun '(st, _) => Ok st)
    | Examine e => if erelevant e && vrelevant (target e) then copy_edge e st else Ok st
    | _ => Ok st
    end.
  (** graph_copy, graph_copy.py:115-178: g_dup, pmap_vertices and pmap_edges at the end *)
  Definition graph_copy (fuel : nat) (s : nat) (g_dup : G) : option (res copying) :=
    result (fun x => x) (depth_first_search out_edges target (fun e => erelevant e && vrelevant (target e)) copy_visitor fuel s [] (Copying g_dup [] [] [])).
End Users.
