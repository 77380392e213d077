(** Properties C01-C07: DirectedGraph, UndirectedGraph, IncidenceGraph. *)
From Verif Require Import Base Graph GraphSpec GraphProofs GraphProofs2 GraphProofs3.

(** C01: every program on a DirectedGraph, including failing calls, behaves as the abstract
    state machine [d_step]. *)
Theorem C01_directed_refinement : forall n ops,
  let '(g, outs) := run DG_call (G_init n) ops in
  let '(a, outs') := run d_step (a_init n) ops in
  outs = outs' /\
  G_vertices g = verts a /\
  Permutation (G_edges g) (es a) /\
  (forall u, Permutation (G_out_edges g u) (a_out a u)) /\
  (forall u v, G_edge g u v = only (between u v (es a))) /\
  G_num_vertices g = length (verts a) /\
  DG_num_edges g = length (es a) /\
  (forall u, G_out_degree g u = length (a_out a u)) /\
  G_has_vertex g = nonempty (verts a) /\
  DG_has_edge g = nonempty (es a).
Proof. exact directed_refinement. Qed.
Print Assumptions C01_directed_refinement.

(** A program with parallel edges, a loop, a dangling edge, failing calls and removals. *)
Definition sample_prog : list gop :=
  [OpAddEdge 0 1; OpAddEdge 0 1; OpAddEdge 1 1; OpRemoveEdge (Edge 0 1 0); OpAddEdge 0 1;
   OpAddEdge 0 7; OpAddEdge 9 0; OpRemoveEdge (Edge 5 5 5); OpRemoveVertex 1; OpAddVertex].
Example C01_nontrivial :
  run DG_call (G_init 3) sample_prog =
  (mkGraph 4 [(0, [(7, [0])]); (2, []); (3, [])],
   [OutEdge (Edge 0 1 0) true; OutEdge (Edge 0 1 1) true; OutEdge (Edge 1 1 0) true; OutUnit;
    OutEdge (Edge 0 1 2) true; OutEdge (Edge 0 7 0) true; OutRaise KeyError; OutRaise KeyError;
    OutUnit; OutVertex 3]).
Proof. vm_compute. reflexivity. Qed.

(** C02: on any reachable DirectedGraph with the source present, [add_edge] adds exactly one edge,
    which was not there. *)
Theorem C02_add_edge_fresh : forall n ops u v,
  let g := fst (run DG_call (G_init n) ops) in
  In u (G_vertices g) ->
  exists k g', G_add_edge g u v = (g', Ok (Edge u v k, true)) /\
    ~ In (Edge u v k) (G_edges g) /\
    Permutation (G_edges g') (Edge u v k :: G_edges g) /\
    G_vertices g' = G_vertices g.
Proof. exact directed_add_edge_fresh. Qed.
Print Assumptions C02_add_edge_fresh.
Example C02_nontrivial :
  let g := fst (run DG_call (G_init 2) [OpAddEdge 0 1; OpAddEdge 0 1; OpRemoveEdge (Edge 0 1 0)]) in
  In 0 (G_vertices g) /\ snd (G_add_edge g 0 1) = Ok (Edge 0 1 2, true).
Proof. vm_compute. auto. Qed.

(** C03: programs on an UndirectedGraph that add edges between existing vertices behave as the
    abstract machine [u_step] on unordered edges ... *)
Theorem C03_undirected_refinement : forall n ops, closed_prog u_step (a_init n) ops ->
  let '(g, outs) := run UG_call (G_init n) ops in
  let '(a, outs') := run u_step (a_init n) ops in
  outs = outs' /\
  G_vertices g = verts a /\
  Permutation (UG_edges g) (es a) /\
  (forall u, Permutation (G_out_edges g u) (a_star a u)) /\
  (forall u, Permutation (UG_in_edges g u) (a_star a u)) /\
  (forall u v, G_edge g u v = only (filter (fun e => target e =? v) (a_star a u))) /\
  G_num_vertices g = length (verts a) /\
  UG_num_edges g = length (es a) /\
  (forall u, G_out_degree g u = length (a_star a u)) /\
  G_has_vertex g = nonempty (verts a) /\
  UG_has_edge g = nonempty (es a).
Proof. exact undirected_refinement. Qed.
Print Assumptions C03_undirected_refinement.

(** ... hence the symmetry claims, and removal through either orientation. *)
Theorem C03_undirected_symmetric : forall n ops, closed_prog u_step (a_init n) ops ->
  let g := fst (run UG_call (G_init n) ops) in
  NoDup (UG_edges g) /\
  (forall e, In e (UG_edges g) -> source e <= target e) /\
  (forall u v k, In (Edge u v k) (G_out_edges g u) <-> In (Edge v u k) (G_out_edges g v)) /\
  (forall u v k, In (Edge u v k) (G_out_edges g u) <->
     In (Edge (Nat.min u v) (Nat.max u v) k) (UG_edges g)) /\
  (forall e, In e (G_out_edges g (source e)) ->
     exists g', UG_remove_edge g e = (g', Ok tt) /\
       UG_remove_edge g (Edge (target e) (source e) (distinguisher e)) =
         (fst (UG_remove_edge g (Edge (target e) (source e) (distinguisher e))), Ok tt) /\
       (forall x, In x (UG_edges g') <-> In x (UG_edges g) /\ x <> norm e) /\
       (forall x, In x (UG_edges (fst (UG_remove_edge g (Edge (target e) (source e) (distinguisher e)))))
          <-> In x (UG_edges g) /\ x <> norm e)).
Proof. exact undirected_symmetric. Qed.
Print Assumptions C03_undirected_symmetric.
Definition sample_closed : list gop :=
  [OpAddEdge 1 0; OpAddEdge 0 1; OpAddEdge 2 2; OpRemoveEdge (Edge 1 0 0); OpAddEdge 2 0;
   OpRemoveEdge (Edge 2 1 0); OpAddVertex; OpAddEdge 3 2; OpRemoveVertex 0].
Example C03_nontrivial :
  closed_prog u_step (a_init 3) sample_closed /\
  UG_edges (fst (run UG_call (G_init 3) sample_closed)) = [Edge 2 2 0; Edge 2 3 0].
Proof. vm_compute. intuition auto. Qed.

(** C04: programs on an IncidenceGraph that add edges between existing vertices behave as [i_step];
    in particular [in_edges] is the mirror of [edges]. *)
Theorem C04_incidence_refinement : forall n ops, closed_prog i_step (a_init n) ops ->
  let '(g, outs) := run IG_call (IG_init n) ops in
  let '(a, outs') := run i_step (a_init n) ops in
  outs = outs' /\
  IG_vertices g = verts a /\
  Permutation (IG_edges g) (es a) /\
  (forall u, Permutation (IG_out_edges g u) (a_out a u)) /\
  (forall u, Permutation (IG_in_edges g u) (a_in a u)) /\
  (forall u, IG_in_degree g u = length (a_in a u)) /\
  (forall v, Permutation (IG_in_edges g v) (filter (fun e => target e =? v) (IG_edges g))).
Proof. exact incidence_refinement. Qed.
Print Assumptions C04_incidence_refinement.
Example C04_nontrivial :
  closed_prog i_step (a_init 3) sample_closed /\
  IG_in_edges (fst (run IG_call (IG_init 3) [OpAddEdge 0 1; OpAddEdge 2 1; OpAddEdge 1 1; OpAddEdge 0 1])) 1
  = [Edge 0 1 0; Edge 0 1 1; Edge 2 1 0; Edge 1 1 0].
Proof. vm_compute. intuition auto. Qed.

(** C05 (full statement): whenever [add_edge] raises, the state is unchanged. True for
    DirectedGraph, for every state whatsoever: *)
Theorem C05_directed_add_edge_atomic : forall g u v g' ex,
  G_add_edge g u v = (g', Raise ex) -> g' = g /\ ex = KeyError /\ ~ In u (G_vertices g).
Proof. exact G_add_edge_raise. Qed.
Print Assumptions C05_directed_add_edge_atomic.
Example C05_directed_nontrivial : G_add_edge (G_init 2) 2 0 = (G_init 2, Raise KeyError).
Proof. vm_compute. reflexivity. Qed.

(** False for UndirectedGraph: a failing [add_edge] leaves a half-added edge, visible in [edges()]. *)
Theorem C05_undirected_add_edge_atomic_refuted :
  exists g u v g' ex, g = G_init 1 /\ UG_add_edge g u v = (g', Raise ex) /\
    UG_edges g = [] /\ UG_edges g' = [Edge 0 1 0].
Proof. exists (G_init 1), 0, 1. vm_compute. eauto 10. Qed.
Print Assumptions C05_undirected_add_edge_atomic_refuted.

(** False for IncidenceGraph: the failed edge is in [edges()]. *)
Theorem C05_incidence_add_edge_atomic_refuted :
  exists g u v g' ex, g = IG_init 1 /\ IG_add_edge g u v = (g', Raise ex) /\
    IG_edges g = [] /\ IG_edges g' = [Edge 0 1 0].
Proof. exists (IG_init 1), 0, 1. vm_compute. eauto 10. Qed.
Print Assumptions C05_incidence_add_edge_atomic_refuted.

(** What does hold there: the exact effect of a failing call, in every state. *)
Theorem C05_undirected_add_edge_partial : forall g u v g' ex,
  UG_add_edge g u v = (g', Raise ex) ->
  ex = KeyError /\
  ((~ In (Nat.min u v) (G_vertices g) /\ g' = g) \/
   (In (Nat.min u v) (G_vertices g) /\ ~ In (Nat.max u v) (G_vertices g) /\
    g' = fst (G_add_edge g (Nat.min u v) (Nat.max u v)))).
Proof. exact UG_add_edge_raise. Qed.
Print Assumptions C05_undirected_add_edge_partial.
Example C05_undirected_nontrivial : UG_add_edge (G_init 2) 3 2 = (G_init 2, Raise KeyError).
Proof. vm_compute. reflexivity. Qed.

Theorem C05_incidence_add_edge_partial : forall g u v g' ex,
  IG_add_edge g u v = (g', Raise ex) ->
  ex = KeyError /\
  ((~ In u (IG_vertices g) /\ g' = g) \/
   (In u (IG_vertices g) /\ ~ In v (dkeys (in_adjacencies g)) /\
    g' = mkIGraph (fst (G_add_edge (ig_base g) u v)) (in_adjacencies g))).
Proof. exact IG_add_edge_raise. Qed.
Print Assumptions C05_incidence_add_edge_partial.
Example C05_incidence_nontrivial : IG_add_edge (IG_init 2) 2 0 = (IG_init 2, Raise KeyError).
Proof. vm_compute. reflexivity. Qed.

(** C06: removing an existing vertex removes it and exactly its incident edges. *)
Theorem C06_directed_remove_vertex : forall n ops u,
  let g := fst (run DG_call (G_init n) ops) in
  In u (G_vertices g) ->
  exists g', DG_remove_vertex g u = (g', Ok tt) /\
    G_vertices g' = filter (fun v => negb (v =? u)) (G_vertices g) /\
    Permutation (G_edges g') (not_incident u (G_edges g)).
Proof. exact directed_remove_vertex_exact. Qed.
Print Assumptions C06_directed_remove_vertex.

Theorem C06_undirected_remove_vertex : forall n ops u, closed_prog u_step (a_init n) ops ->
  let g := fst (run UG_call (G_init n) ops) in
  In u (G_vertices g) ->
  exists g', UG_remove_vertex g u = (g', Ok tt) /\
    G_vertices g' = filter (fun v => negb (v =? u)) (G_vertices g) /\
    Permutation (UG_edges g') (not_incident u (UG_edges g)).
Proof. exact undirected_remove_vertex_exact. Qed.
Print Assumptions C06_undirected_remove_vertex.

Theorem C06_incidence_remove_vertex : forall n ops u, closed_prog i_step (a_init n) ops ->
  let g := fst (run IG_call (IG_init n) ops) in
  In u (IG_vertices g) ->
  exists g', IG_remove_vertex g u = (g', Ok tt) /\
    IG_vertices g' = filter (fun v => negb (v =? u)) (IG_vertices g) /\
    Permutation (IG_edges g') (not_incident u (IG_edges g)) /\
    (forall v, Permutation (IG_in_edges g' v) (filter (fun e => target e =? v) (IG_edges g'))).
Proof. exact incidence_remove_vertex_exact. Qed.
Print Assumptions C06_incidence_remove_vertex.
Example C06_nontrivial :
  let g := fst (run DG_call (G_init 3)
    [OpAddEdge 0 1; OpAddEdge 1 1; OpAddEdge 1 2; OpAddEdge 2 0; OpAddEdge 0 1]) in
  In 1 (G_vertices g) /\ G_edges (fst (DG_remove_vertex g 1)) = [Edge 2 0 0].
Proof. vm_compute. auto. Qed.

(** C07: between two [clear()], [add_vertex] returns consecutive numbers starting at the initial
    size: no identifier comes back ... *)
Theorem C07_directed_ids : forall n ops, ~ In OpClear ops ->
  vertex_outs (snd (run DG_call (G_init n) ops)) = seq n (count_add_vertex ops).
Proof. exact directed_ids. Qed.
Print Assumptions C07_directed_ids.
Theorem C07_undirected_ids : forall n ops, closed_prog u_step (a_init n) ops -> ~ In OpClear ops ->
  vertex_outs (snd (run UG_call (G_init n) ops)) = seq n (count_add_vertex ops).
Proof. exact undirected_ids. Qed.
Print Assumptions C07_undirected_ids.
Theorem C07_incidence_ids : forall n ops, closed_prog i_step (a_init n) ops -> ~ In OpClear ops ->
  vertex_outs (snd (run IG_call (IG_init n) ops)) = seq n (count_add_vertex ops).
Proof. exact incidence_ids. Qed.
Print Assumptions C07_incidence_ids.
Example C07_nontrivial :
  vertex_outs (snd (run DG_call (G_init 2)
    [OpAddVertex; OpRemoveVertex 2; OpAddVertex; OpRemoveVertex 0; OpAddVertex])) = [2; 3; 4].
Proof. vm_compute. reflexivity. Qed.

(** ... the new identifier is never a current vertex, also after any number of [clear()], and
    [clear()] gives back exactly the state of a new empty graph. *)
Theorem C07_directed_add_vertex_and_clear : forall n ops,
  let g := fst (run DG_call (G_init n) ops) in
  exists u g', G_add_vertex g = (g', Ok u) /\ ~ In u (G_vertices g) /\
    G_vertices g' = G_vertices g ++ [u] /\ Permutation (G_edges g') (G_edges g) /\
    DG_clear g = (G_init 0, Ok tt).
Proof. exact directed_add_vertex_new. Qed.
Print Assumptions C07_directed_add_vertex_and_clear.
Theorem C07_undirected_add_vertex_and_clear : forall n ops, closed_prog u_step (a_init n) ops ->
  let g := fst (run UG_call (G_init n) ops) in
  exists u g', G_add_vertex g = (g', Ok u) /\ ~ In u (G_vertices g) /\
    G_vertices g' = G_vertices g ++ [u] /\ Permutation (UG_edges g') (UG_edges g) /\
    UG_clear g = (G_init 0, Ok tt).
Proof. exact undirected_add_vertex_new. Qed.
Print Assumptions C07_undirected_add_vertex_and_clear.
Theorem C07_incidence_add_vertex_and_clear : forall n ops, closed_prog i_step (a_init n) ops ->
  let g := fst (run IG_call (IG_init n) ops) in
  exists u g', IG_add_vertex g = (g', Ok u) /\ ~ In u (IG_vertices g) /\
    IG_vertices g' = IG_vertices g ++ [u] /\ Permutation (IG_edges g') (IG_edges g) /\
    IG_clear g = (IG_init 0, Ok tt).
Proof. exact incidence_add_vertex_new. Qed.
Print Assumptions C07_incidence_add_vertex_and_clear.
Example C07_clear_nontrivial :
  fst (run DG_call (G_init 2) [OpAddEdge 0 1; OpClear; OpAddVertex]) = G_init 1.
Proof. vm_compute. reflexivity. Qed.

(** The identifiers restart from 0 after a clear, in the order of creation. *)
Lemma run_cut {S} (call : S -> gop -> S * gout) b op a : forall s,
  skipn (Datatypes.S (length b)) (snd (run call s (b ++ op :: a))) = snd (run call (fst (call (fst (run call s b)) op)) a).
Proof.
  induction b as [|x b IH]; intros s; cbn [app length run].
  - cbn [fst]. destruct (call s op) as [s1 o]. cbn [fst]. destruct (run call s1 a) as [s2 os]. reflexivity.
  - destruct (call s x) as [s1 o]. specialize (IH s1). destruct (run call s1 (b ++ op :: a)) as [s2 os]. destruct (run call s1 b) as [s3 os3]. exact IH.
Qed.
Theorem C07_directed_ids_after_clear n before after : ~ In OpClear after ->
  vertex_outs (skipn (S (length before)) (snd (run DG_call (G_init n) (before ++ OpClear :: after)))) = seq 0 (count_add_vertex after).
Proof.
  intros NC. rewrite run_cut. destruct (C07_directed_add_vertex_and_clear n before) as (_ & _ & _ & _ & _ & _ & E).
  cbn [DG_call]. rewrite E. apply directed_ids, NC.
Qed.
Print Assumptions C07_directed_ids_after_clear.
Theorem C07_undirected_ids_after_clear n before after : closed_prog u_step (a_init n) before -> closed_prog u_step (a_init 0) after -> ~ In OpClear after ->
  vertex_outs (skipn (S (length before)) (snd (run UG_call (G_init n) (before ++ OpClear :: after)))) = seq 0 (count_add_vertex after).
Proof.
  intros CB CA NC. rewrite run_cut. destruct (C07_undirected_add_vertex_and_clear n before CB) as (_ & _ & _ & _ & _ & _ & E).
  cbn [UG_call]. rewrite E. apply undirected_ids; assumption.
Qed.
Print Assumptions C07_undirected_ids_after_clear.
Theorem C07_incidence_ids_after_clear n before after : closed_prog i_step (a_init n) before -> closed_prog i_step (a_init 0) after -> ~ In OpClear after ->
  vertex_outs (skipn (S (length before)) (snd (run IG_call (IG_init n) (before ++ OpClear :: after)))) = seq 0 (count_add_vertex after).
Proof.
  intros CB CA NC. rewrite run_cut. destruct (C07_incidence_add_vertex_and_clear n before CB) as (_ & _ & _ & _ & _ & _ & E).
  cbn [IG_call]. rewrite E. apply incidence_ids; assumption.
Qed.
Print Assumptions C07_incidence_ids_after_clear.
Example C07_after_clear_nontrivial : closed_prog u_step (a_init 2) [OpAddVertex; OpAddEdge 0 2; OpClear; OpAddVertex] /\ closed_prog u_step (a_init 0) [OpAddVertex; OpRemoveVertex 0; OpAddVertex; OpAddVertex; OpAddEdge 1 2] /\
  vertex_outs (skipn 5 (snd (run UG_call (G_init 2) ([OpAddVertex; OpAddEdge 0 2; OpClear; OpAddVertex] ++ OpClear :: [OpAddVertex; OpRemoveVertex 0; OpAddVertex; OpAddVertex; OpAddEdge 1 2])))) = [0; 1; 2].
Proof. vm_compute. intuition. Qed.
