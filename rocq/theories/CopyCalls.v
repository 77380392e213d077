(** Model of the callbacks callback_dup_vertex and callback_dup_edge of src/pybgl/graph_copy.py and src/pybgl/automaton_copy.py. The functions
    without callbacks are in SearchUsers.v (graph_copy) and AutCopy.v (automaton_copy). *)
From Verif Require Import Base Graph Automaton Search SearchUsers.

Section CopyCalls.
  (** [E]: the edges of g; [E']: what add_edge of g_dup returns; [G]: the class of g_dup; [St]: what the callbacks modify. *)
  Context {E E' G St : Type} {EE : EqDec E}.
  Variables (source target : E -> nat) (vrelevant : nat -> bool) (erelevant : E -> bool).
  (** g_dup.add_vertex, graph_copy.py:88, and g_dup.add_edge, graph_copy.py:108, which receives the label of the examined edge in automaton_copy.py:50 *)
  Variables (add_vertex : G -> G * res nat) (add_edge : E -> G -> nat -> nat -> G * res (E' * bool)).
  (** callback_dup_vertex(u, g, u_dup, g_dup) and callback_dup_edge(e, g, e_dup, g_dup), graph_copy.py:58-70: they may read g_dup, raise, and
      modify anything but g and g_dup (a callback that sets final states of g_dup is in AutCopy.v). *)
  Variables (callback_dup_vertex : option (nat -> nat -> G -> St -> res St)) (callback_dup_edge : option (E -> E' -> G -> St -> res St)).
  (** The attributes of the visitor, graph_copy.py:72-78, and the state of the callbacks *)
  Record ccopying := CCopying { cc_dup : G; cc_vertices : dict nat nat; cc_edges : dict E E'; cc_done : list nat; cc_user : St }.
  (** dup_vertex, graph_copy.py:80-93 *)
  Definition c_dup_vertex (u : nat) (st : ccopying) : res (ccopying * nat) :=
    match add_vertex (cc_dup st) with
    | (_, Raise x) => Raise x
    | (g, Ok u_dup) =>
        let st := CCopying g (dset (cc_vertices st) u u_dup) (cc_edges st) (sadd u (cc_done st)) (cc_user st) in
        match callback_dup_vertex with
        | None => Ok (st, u_dup)
        | Some f => rbind (f u u_dup (cc_dup st) (cc_user st)) (fun user => Ok (CCopying (cc_dup st) (cc_vertices st) (cc_edges st) (cc_done st) user, u_dup))
        end
    end.
  (** examine_relevant_edge, graph_copy.py:99-112 and automaton_copy.py:34-54 *)
  Definition c_copy_edge (e : E) (st : ccopying) : res ccopying :=
    match dget (cc_vertices st) (source e) with
    | None => Raise KeyError
    | Some u_dup =>
        let v := target e in
        rbind
          (if mem v (cc_done st) then match dget (cc_vertices st) v with Some v_dup => Ok (st, v_dup) | None => Raise KeyError end
           else c_dup_vertex v st)
          (fun '(st, v_dup) =>
           match add_edge e (cc_dup st) u_dup v_dup with
           | (_, Raise x) => Raise x
           | (g, Ok (e_dup, _)) =>
               let st := CCopying g (cc_vertices st) (dset (cc_edges st) e e_dup) (cc_done st) (cc_user st) in
               match callback_dup_edge with
               | None => Ok st
               | Some f => rbind (f e e_dup (cc_dup st) (cc_user st)) (fun user => Ok (CCopying (cc_dup st) (cc_vertices st) (cc_edges st) (cc_done st) user))
               end
           end)
    end.
  (** start_vertex, graph_copy.py:95-97, and examine_edge, graph_extract.py:88-97 *)
  Definition c_copy_visitor (x : event E) (st : ccopying) : res ccopying :=
    match x with
    | Start s => rbind (c_dup_vertex s st) (fun '(st, _) => Ok st)
    | Examine e => if erelevant e && vrelevant (target e) then c_copy_edge e st else Ok st
    | _ => Ok st
    end.
  (** The call of depth_first_search at the end of graph_copy, graph_copy.py:174-178, and of automaton_copy, automaton_copy.py:116-120, with empty maps *)
  Definition c_copy (out_edges : nat -> list E) (fuel : nat) (s : nat) (g_dup : G) (user : St) : option (res ccopying) :=
    result (fun x => x) (depth_first_search out_edges target (fun e => erelevant e && vrelevant (target e)) c_copy_visitor fuel s [] (CCopying g_dup [] [] [] user)).
End CopyCalls.
Arguments ccopying : clear implicits.
Arguments CCopying {E E' G St}. Arguments cc_dup {E E' G St}. Arguments cc_vertices {E E' G St}. Arguments cc_edges {E E' G St}. Arguments cc_done {E E' G St}. Arguments cc_user {E E' G St}.

(** graph_copy with callbacks, graph_copy.py:115-178; the class of g_dup is given by its method add_edge (Graph or UndirectedGraph) *)
Definition graph_copy_calls {E St : Type} `{EqDec E} (out_edges : nat -> list E) (source target : E -> nat) (vrelevant : nat -> bool) (erelevant : E -> bool)
    (add_edge : graph -> nat -> nat -> graph * res (gedge * bool))
    (callback_dup_vertex : option (nat -> nat -> graph -> St -> res St)) (callback_dup_edge : option (E -> gedge -> graph -> St -> res St))
    (fuel s : nat) (g_dup : graph) (user : St) : option (res (ccopying E gedge graph St)) :=
  c_copy source target vrelevant erelevant G_add_vertex (fun _ => add_edge) callback_dup_vertex callback_dup_edge out_edges fuel s g_dup user.

(** automaton_copy with callbacks and with both maps given (empty), automaton_copy.py:57-120 *)
Definition automaton_copy_calls {A St : Type} `{EqDec A} (g : aut A) (vrelevant : nat -> bool) (erelevant : edge A -> bool)
    (callback_dup_vertex : option (nat -> nat -> aut A -> St -> res St)) (callback_dup_edge : option (edge A -> option (edge A) -> aut A -> St -> res St))
    (fuel s : nat) (g_dup : aut A) (user : St) : option (res (ccopying (edge A) (option (edge A)) (aut A) St)) :=
  c_copy Graph.source Graph.target vrelevant erelevant A_add_vertex (fun e h u v => A_add_edge h u v (distinguisher e)) callback_dup_vertex callback_dup_edge (A_out_edges g) fuel s g_dup user.
