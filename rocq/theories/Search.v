(** Model of src/pybgl/depth_first_search.py, breadth_first_search.py and graph_traversal.py.

    A graph is given by its methods out_edges and target; it is not modified during the search (no visitor of the library
    does). A visitor is a function [event -> St -> res St]: one constructor of [event] per method of the visitors, [Raise]
    when the method raises (the state reached by then is dropped: the exception goes through the search). *)
From Verif Require Import Base.

(** graph_traversal.py:13-15 *)
Inductive color := WHITE | GRAY | BLACK.
(** [==] on the colors, graph_traversal.py:13-15 *)
#[global] Instance EqDec_color : EqDec color.
Proof. intros x y. decide equality. Defined.

(** pmap_vcolor wraps a defaultdict(int): reading a missing key inserts it with the value 0 (WHITE). *)
Definition colors := dict nat color.
(** the color of [v] in such a map (see depth_first_search.py:163) *)
Definition color_of (c : colors) (v : nat) : color := match dget c v with Some x => x | None => WHITE end.
(** pmap_vcolor[v], depth_first_search.py:163, breadth_first_search.py:184 *)
Definition color_read (c : colors) (v : nat) : color * colors :=
  match dget c v with Some x => (x, c) | None => (WHITE, dset c v WHITE) end.

(** The methods of the visitors. [Ask e] is the call if_push(e, g), which is a method of another object, and not of
    the visitor; if_push may record its argument (see cut.py) but its answer depends on its argument only (depth_first_search.py:13-103, breadth_first_search.py:13-126, graph_traversal.py:18-60). *)
Inductive event (E : Type) :=
| Init (v : nat) | Start (v : nat) | Discover (v : nat) | ExamineVertex (v : nat) | Ask (e : E) | Examine (e : E) | Tree (e : E)
| Back (e : E) | ForwardOrCross (e : E) | NonTree (e : E) | GrayTarget (e : E) | BlackTarget (e : E) | Finish (v : nat).
Arguments Init {E} v. Arguments Start {E} v. Arguments Discover {E} v. Arguments ExamineVertex {E} v. Arguments Ask {E} e.
Arguments Examine {E} e. Arguments Tree {E} e. Arguments Back {E} e. Arguments ForwardOrCross {E} e. Arguments NonTree {E} e.
Arguments GrayTarget {E} e. Arguments BlackTarget {E} e. Arguments Finish {E} v.

Section Search.
  Context {E St : Type}.
  Variables (out_edges : nat -> list E) (target : E -> nat) (if_push : E -> bool) (vis : event E -> St -> res St).

  (** a sequence of calls (e.g. depth_first_search.py:146-148) *)
  Fixpoint calls (l : list (event E)) (st : St) : res St :=
    match l with [] => Ok st | x :: l' => rbind (vis x st) (calls l') end.
  (** [[e for e in g.out_edges(u) if if_push(e, g)]] (depth_first_search.py:149, 156, 177) *)
  Definition u_edges (u : nat) : list E := filter if_push (out_edges u).
  (** the calls to if_push of such a comprehension, depth_first_search.py:149, 156, 177 *)
  Definition asks (u : nat) : list (event E) := map Ask (out_edges u).

  (** The two nested while loops of depth_first_search, depth_first_search.py:152-189, as one machine.
      [cur = None]: about to test [while stack] (line 152); [cur = Some (u, i, n)]: about to test [while i != n] (line 158).
      The list u_edges of lines 156 and 177 is computed again when used, since the graph does not change; its calls to
      if_push take place where the code has them. The right end of the deque is the head of the list. *)
  Fixpoint dfs_loop (fuel : nat) (cur : option (nat * nat * nat)) (stack : list (nat * nat * nat)) (c : colors) (st : St) :
      option (res (colors * St)) :=
    match fuel with
    | 0 => None
    | S fuel' =>
        match cur with
        | None =>
            match stack with
            | [] => Some (Ok (c, st))
            | (u, i, n) :: stack' =>
                match calls (asks u) st with
                | Raise x => Some (Raise x)
                | Ok st1 => dfs_loop fuel' (Some (u, i, n)) stack' c st1
                end
            end
        | Some (u, i, n) =>
            if eqb i n then
              match vis (Finish u) st with
              | Raise x => Some (Raise x)
              | Ok st1 => dfs_loop fuel' None stack (dset c u BLACK) st1
              end
            else
              match nth_error (u_edges u) i with
              | None => Some (Raise IndexError)
              | Some e =>
                  let v := target e in
                  let '(color_v, c1) := color_read c v in
                  match color_v with
                  | WHITE =>
                      match calls ([Examine e; Tree e; Discover v] ++ asks v) st with
                      | Raise x => Some (Raise x)
                      | Ok st1 => dfs_loop fuel' (Some (v, 0, length (u_edges v))) ((u, i + 1, n) :: stack) (dset c1 v GRAY) st1
                      end
                  | GRAY =>
                      match calls [Examine e; Back e] st with
                      | Raise x => Some (Raise x)
                      | Ok st1 => dfs_loop fuel' (Some (u, i + 1, n)) stack c1 st1
                      end
                  | BLACK =>
                      match calls [Examine e; ForwardOrCross e] st with
                      | Raise x => Some (Raise x)
                      | Ok st1 => dfs_loop fuel' (Some (u, i + 1, n)) stack c1 st1
                      end
                  end
              end
        end
    end.

  (** depth_first_search, depth_first_search.py:107-189 *)
  Definition depth_first_search (fuel : nat) (s : nat) (c : colors) (st : St) : option (res (colors * St)) :=
    match calls ([Start s; Discover s] ++ asks s) st with
    | Raise x => Some (Raise x)
    | Ok st1 => dfs_loop fuel None [(s, 0, length (u_edges s))] (dset c s GRAY) st1
    end.

  (** depth_first_search_graph, depth_first_search.py:193-228; [sources if sources else g.vertices()] *)
  Fixpoint dfs_sources (fuel : nat) (sources : list nat) (c : colors) (st : St) : option (res (colors * St)) :=
    match sources with
    | [] => Some (Ok (c, st))
    | u :: sources' =>
        match color_read c u with
        | (WHITE, c1) =>
            match depth_first_search fuel u c1 st with
            | Some (Ok (c2, st2)) => dfs_sources fuel sources' c2 st2
            | o => o
            end
        | (_, c1) => dfs_sources fuel sources' c1 st
        end
    end.
  (** depth_first_search_graph, depth_first_search.py:193-228 *)
  Definition depth_first_search_graph (fuel : nat) (vertices sources : list nat) (c : colors) (st : St) : option (res (colors * St)) :=
    dfs_sources fuel (match sources with [] => vertices | _ => sources end) c st.

  (** The loop on the out-edges of u, breadth_first_search.py:179-195; appendleft puts at the tail of the list, the
      right end of the deque being its head. *)
  Fixpoint bfs_edges (l : list E) (queue : list nat) (c : colors) (st : St) : res (list nat * colors * St) :=
    match l with
    | [] => Ok (queue, c, st)
    | e :: l' =>
        rbind (vis (Ask e) st) (fun st =>
        if negb (if_push e) then bfs_edges l' queue c st
        else
          let v := target e in
          let '(color_v, c1) := color_read c v in
          match color_v with
          | WHITE => rbind (calls [Examine e; Tree e; Discover v] st) (fun st => bfs_edges l' (queue ++ [v]) (dset c1 v GRAY) st)
          | GRAY => rbind (calls [Examine e; NonTree e; GrayTarget e] st) (fun st => bfs_edges l' queue c1 st)
          | BLACK => rbind (calls [Examine e; NonTree e; BlackTarget e] st) (fun st => bfs_edges l' queue c1 st)
          end)
    end.
  (** [while stack], breadth_first_search.py:176-197 *)
  Fixpoint bfs_loop (fuel : nat) (queue : list nat) (c : colors) (st : St) : option (res (colors * St)) :=
    match queue with
    | [] => Some (Ok (c, st))
    | u :: queue' =>
        match fuel with
        | 0 => None
        | S fuel' =>
            match rbind (vis (ExamineVertex u) st) (bfs_edges (out_edges u) queue' c) with
            | Raise x => Some (Raise x)
            | Ok (queue1, c1, st1) =>
                match vis (Finish u) st1 with
                | Raise x => Some (Raise x)
                | Ok st2 => bfs_loop fuel' queue1 (dset c1 u BLACK) st2
                end
            end
        end
    end.
  (** [for s in sources], breadth_first_search.py:171-174: append puts at the right end. *)
  Fixpoint bfs_sources (sources : list nat) (queue : list nat) (c : colors) (st : St) : res (list nat * colors * St) :=
    match sources with
    | [] => Ok (queue, c, st)
    | s :: sources' => rbind (vis (Discover s) st) (fun st => bfs_sources sources' (s :: queue) (dset c s GRAY) st)
    end.
  (** breadth_first_search_graph, breadth_first_search.py:130-197; sources is required: [for s in None] raises *)
  Definition breadth_first_search_graph (fuel : nat) (sources : option (list nat)) (c : colors) (st : St) : option (res (colors * St)) :=
    match sources with
    | None => Some (Raise TypeError)
    | Some sources =>
        match bfs_sources sources [] c st with
        | Raise x => Some (Raise x)
        | Ok (queue, c, st) => bfs_loop fuel queue c st
        end
    end.
  (** breadth_first_search, breadth_first_search.py:200-237, with a visitor *)
  Fixpoint bfs_init (vertices : list nat) (c : colors) (st : St) : res (colors * St) :=
    match vertices with
    | [] => Ok (c, st)
    | u :: l => rbind (vis (Init u) st) (bfs_init l (dset c u WHITE))
    end.
  (** breadth_first_search, breadth_first_search.py:200-237 *)
  Definition breadth_first_search (fuel : nat) (vertices : list nat) (s : nat) (c : colors) (st : St) : option (res (colors * St)) :=
    match bfs_init vertices c st with
    | Raise x => Some (Raise x)
    | Ok (c, st) => breadth_first_search_graph fuel (Some [s]) c st
    end.

  (** dfs_tree, graph_traversal.py:63-88; bfs_tree, graph_traversal.py:91-116: the right end of the deque is the head of
      the list. *)
  Definition dfs_push (l : list E) (stack : list nat) : list nat := fold_left (fun stack e => target e :: stack) l stack.
  (** the appendleft of bfs_tree, graph_traversal.py:91-116 *)
  Definition bfs_push (l : list E) (stack : list nat) : list nat := fold_left (fun stack e => stack ++ [target e]) l stack.
  (** the loop of dfs_tree, graph_traversal.py:80-88, and of bfs_tree, graph_traversal.py:108-116 *)
  Fixpoint tree_loop (push : list E -> list nat -> list nat) (fuel : nat) (stack : list nat) (st : St) : option (res St) :=
    match stack with
    | [] => Some (Ok st)
    | u :: stack' =>
        match fuel with
        | 0 => None
        | S fuel' =>
            match calls ([Discover u] ++ map Examine (out_edges u) ++ [Finish u]) st with
            | Raise x => Some (Raise x)
            | Ok st1 => tree_loop push fuel' (push (out_edges u) stack') st1
            end
        end
    end.
  (** dfs_tree, graph_traversal.py:63-88 *)
  Definition dfs_tree (fuel : nat) (s : nat) (st : St) : option (res St) :=
    match vis (Start s) st with Raise x => Some (Raise x) | Ok st1 => tree_loop dfs_push fuel [s] st1 end.
  (** bfs_tree, graph_traversal.py:91-116 *)
  Definition bfs_tree (fuel : nat) (s : nat) (st : St) : option (res St) :=
    match vis (Start s) st with Raise x => Some (Raise x) | Ok st1 => tree_loop bfs_push fuel [s] st1 end.
End Search.

(** breadth_first_search called without visitor (vis=None), breadth_first_search.py:234-235: [None.initialize_vertex]
    raises AttributeError at the first vertex; with no vertex at all, breadth_first_search_graph uses the default
    visitor, whose methods do nothing. *)
Definition breadth_first_search_default {E} (out_edges : nat -> list E) (target : E -> nat) (if_push : E -> bool) (fuel : nat)
    (vertices : list nat) (s : nat) (c : colors) : option (res (colors * unit)) :=
  match vertices with
  | _ :: _ => Some (Raise AttributeError)
  | [] => breadth_first_search_graph out_edges target if_push (fun _ st => Ok st) fuel (Some [s]) c tt
  end.
