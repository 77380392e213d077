(** Model of src/pybgl/graph_copy.py when g_dup is g itself: the graph grows while depth_first_search explores it. *)
From Verif Require Import Graph Search SearchUsers Base.

Section Live.
  Context {E St : Type}.
  Variables (out_edges : St -> nat -> list E) (target : E -> nat) (if_push : E -> bool) (vis : event E -> St -> res St).

  (** [[e for e in g.out_edges(u) if if_push(e, g)]] in the current graph, depth_first_search.py:149, 156, 177 *)
  Definition live_edges (st : St) (u : nat) : list E := filter if_push (out_edges st u).
  (** The two nested while loops, depth_first_search.py:152-189, on a graph that the visitor may change: [cur] holds
      (u, i, n) and the list u_edges, which is read from the graph at lines 156 and 177 only. if_push is taken as a
      function: its calls are not recorded (cut.py is the only caller that needs them). The visitor methods of lines
      161, 169, 176, 183, 185, 189 are called in this order; pmap_vcolor[v] (163) does not depend on the graph. *)
  Fixpoint live_loop (fuel : nat) (cur : option (nat * nat * nat * list E)) (stack : list (nat * nat * nat)) (c : colors) (st : St) :
      option (res (colors * St)) :=
    match fuel with
    | 0 => None
    | S fuel' =>
        match cur with
        | None =>
            match stack with
            | [] => Some (Ok (c, st))
            | (u, i, n) :: stack' => live_loop fuel' (Some (u, i, n, live_edges st u)) stack' c st
            end
        | Some (u, i, n, u_edges) =>
            if eqb i n then
              match vis (Finish u) st with
              | Raise x => Some (Raise x)
              | Ok st1 => live_loop fuel' None stack (dset c u BLACK) st1
              end
            else
              match nth_error u_edges i with
              | None => Some (Raise IndexError)
              | Some e =>
                  let v := target e in
                  let '(color_v, c1) := color_read c v in
                  match color_v with
                  | WHITE =>
                      match calls vis [Examine e; Tree e; Discover v] st with
                      | Raise x => Some (Raise x)
                      | Ok st1 => live_loop fuel' (Some (v, 0, length (live_edges st1 v), live_edges st1 v)) ((u, i + 1, n) :: stack) (dset c1 v GRAY) st1
                      end
                  | GRAY =>
                      match calls vis [Examine e; Back e] st with
                      | Raise x => Some (Raise x)
                      | Ok st1 => live_loop fuel' (Some (u, i + 1, n, u_edges)) stack c1 st1
                      end
                  | BLACK =>
                      match calls vis [Examine e; ForwardOrCross e] st with
                      | Raise x => Some (Raise x)
                      | Ok st1 => live_loop fuel' (Some (u, i + 1, n, u_edges)) stack c1 st1
                      end
                  end
              end
        end
    end.
  (** depth_first_search, depth_first_search.py:107-189, on a graph that the visitor may change *)
  Definition live_depth_first_search (fuel : nat) (s : nat) (c : colors) (st : St) : option (res (colors * St)) :=
    match calls vis [Start s; Discover s] st with
    | Raise x => Some (Raise x)
    | Ok st1 => live_loop fuel None [(s, 0, length (live_edges st1 s))] (dset c s GRAY) st1
    end.
End Live.

Section SelfCopy.
  Variables (vrelevant : nat -> bool) (erelevant : gedge -> bool) (add_edge : graph -> nat -> nat -> graph * res (gedge * bool)).
  (** graph_copy(s, g, g, ...), graph_copy.py:115-178, for g of class DirectedGraph or UndirectedGraph ([add_edge] is the
      method of the class), without callbacks: the edges explored are those of the graph that receives the copy *)
  Definition graph_copy_self (fuel : nat) (s : nat) (g : graph) : option (res (@copying gedge graph)) :=
    result (fun x => x) (live_depth_first_search (fun st u => G_out_edges (cp_dup st) u) target (fun e => erelevant e && vrelevant (target e))
      (copy_visitor source target vrelevant erelevant G_add_vertex add_edge) fuel s [] (Copying g [] [] [])).
End SelfCopy.
