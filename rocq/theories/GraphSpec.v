(** Independent specification of the graph classes: a graph is a counter, a list of vertices
    and a multiset of edges [(u, v, n)] (a list, compared up to permutation). Nothing here uses
    adjacency dictionaries. *)
From Verif Require Import Base Graph.

Record agraph := AG { next_id : nat; verts : list nat; es : list gedge }.

Definition a_init (n : nat) : agraph := AG n (seq 0 n) [].

(** The distinguisher of a new parallel edge: 0 for the first one, else 1 + the largest. *)
Definition between (u v : nat) (E : list gedge) : list gedge :=
  filter (fun e => (source e =? u) && (target e =? v)) E.
Definition fresh (E : list gedge) : nat :=
  match E with [] => 0 | _ => S (list_max (map distinguisher E)) end.

Definition without (e : gedge) (E : list gedge) := filter (fun x => negb (eqb x e)) E.
Definition not_incident (u : nat) (E : list gedge) :=
  filter (fun e => negb ((source e =? u) || (target e =? u))) E.
Definition not_into (u : nat) (E : list gedge) := filter (fun e => negb (target e =? u)) E.

Definition a_clear (a : agraph) : agraph * gout := (AG 0 [] [], OutUnit).
Definition a_add_vertex (a : agraph) : agraph * gout :=
  (AG (S (next_id a)) (verts a ++ [next_id a]) (es a), OutVertex (next_id a)).
Definition a_push (a : agraph) (e : gedge) : agraph * gout :=
  (AG (next_id a) (verts a) (es a ++ [e]), OutEdge e true).
Definition a_drop_vertex (a : agraph) (u : nat) : agraph * gout :=
  (AG (next_id a) (filter (fun v => negb (v =? u)) (verts a)) (not_incident u (es a)), OutUnit).

(** Directed graphs: [add_edge] needs the source only; a dangling target is allowed.
    [remove_edge] of an unknown edge is silent iff a parallel edge exists. *)
Definition d_step (a : agraph) (op : gop) : agraph * gout :=
  match op with
  | OpAddVertex => a_add_vertex a
  | OpAddEdge u v =>
      if mem u (verts a) then a_push a (Edge u v (fresh (between u v (es a))))
      else (a, OutRaise KeyError)
  | OpRemoveEdge e =>
      match between (source e) (target e) (es a) with
      | [] => (a, OutRaise KeyError)
      | _ => (AG (next_id a) (verts a) (without e (es a)), OutUnit)
      end
  | OpRemoveVertex u =>
      if mem u (verts a) then a_drop_vertex a u
      else (AG (next_id a) (verts a) (not_into u (es a)), OutRaise KeyError)
  | OpClear => a_clear a
  end.

(** Incidence graphs, for callers that only add edges between existing vertices. *)
Definition i_step (a : agraph) (op : gop) : agraph * gout :=
  match op with
  | OpRemoveVertex u => if mem u (verts a) then a_drop_vertex a u else (a, OutRaise KeyError)
  | _ => d_step a op
  end.

(** Undirected graphs: an edge is stored once, with its endpoints in increasing order. *)
Definition norm (e : gedge) : gedge :=
  Edge (Nat.min (source e) (target e)) (Nat.max (source e) (target e)) (distinguisher e).

Definition u_step (a : agraph) (op : gop) : agraph * gout :=
  match op with
  | OpAddVertex => a_add_vertex a
  | OpAddEdge u v =>
      let u' := Nat.min u v in
      let v' := Nat.max u v in
      if mem u' (verts a) && mem v' (verts a)
      then a_push a (Edge u' v' (fresh (between u' v' (es a))))
      else (a, OutRaise KeyError)
  | OpRemoveEdge e =>
      if mem (norm e) (es a) then (AG (next_id a) (verts a) (without (norm e) (es a)), OutUnit)
      else if (source e =? target e) && negb (length (between (source e) (target e) (es a)) =? 0)
      then (a, OutUnit)
      else (a, OutRaise KeyError)
  | OpRemoveVertex u => if mem u (verts a) then a_drop_vertex a u else (a, OutRaise KeyError)
  | OpClear => a_clear a
  end.

(** Programs whose [add_edge] calls name two vertices existing at the time of the call. *)
Fixpoint closed_prog (step : agraph -> gop -> agraph * gout) (a : agraph) (ops : list gop) : Prop :=
  match ops with
  | [] => True
  | op :: ops' =>
      (match op with OpAddEdge u v => In u (verts a) /\ In v (verts a) | _ => True end) /\
      closed_prog step (fst (step a op)) ops'
  end.

(** Abstract queries. *)
Definition a_out (a : agraph) (u : nat) : list gedge := filter (fun e => source e =? u) (es a).
Definition a_in (a : agraph) (u : nat) : list gedge := filter (fun e => target e =? u) (es a).
(** Undirected: edges incident to [u], each presented as leaving [u]; a loop appears once. *)
Definition ends_from (u : nat) (e : gedge) : list gedge :=
  if source e =? u then [e]
  else if target e =? u then [Edge u (source e) (distinguisher e)] else [].
Definition a_star (a : agraph) (u : nat) : list gedge := flat_map (ends_from u) (es a).

(** [edge(u, v)] answers only when the edge is unique. *)
Definition only (l : list gedge) : option gedge * bool :=
  match l with [e] => (Some e, true) | _ => (None, false) end.

Definition nonempty {A} (l : list A) : bool := match l with [] => false | _ => true end.

(** Identifiers returned by [add_vertex] along a run, and the number of [add_vertex] calls. *)
Definition vertex_outs (outs : list gout) : list nat :=
  flat_map (fun o => match o with OutVertex u => [u] | _ => [] end) outs.
Definition count_add_vertex (ops : list gop) : nat :=
  length (filter (fun op => match op with OpAddVertex => true | _ => false end) ops).
