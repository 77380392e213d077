(** Properties C109 (reverse_graph on an IncidenceGraph that is used afterwards) and C110 (reverse_graph on an UndirectedGraph
    or a DirectedGraph). *)
From Coq Require Import Permutation.
From Verif Require Import Graph GraphSpec GraphProofs GraphProofs2 Reverse ReverseSpec ReverseProofs Base BaseProofs.

(** C109: whatever the calls of add_vertex, add_edge, remove_edge, remove_vertex, clear and reverse_graph, in any order, each
    call returns what it would return on the specified graph, and the readers see the stored edges in their stored direction
    or, when the number of calls of reverse_graph is odd, in the other direction. *)
Theorem C109_reverse_interleaved : forall n ops, r_closed (a_init n, false) ops ->
  let '(o, outs) := rrun R_call (R_init n) ops in
  let '((a, flipped), outs') := rrun r_step (a_init n, false) ops in
  outs = outs' /\
  IG_vertices (ro_graph o) = verts a /\ Permutation (IG_edges (ro_graph o)) (es a) /\
  (forall e, R_source o e = seen_source flipped e /\ R_target o e = seen_target flipped e) /\
  (forall u, Permutation (R_out_edges o u) (filter (fun e => seen_source flipped e =? u) (es a)) /\
             Permutation (R_in_edges o u) (filter (fun e => seen_target flipped e =? u) (es a)) /\
             R_out_degree o u = length (filter (fun e => seen_source flipped e =? u) (es a)) /\
             R_in_degree o u = length (filter (fun e => seen_target flipped e =? u) (es a))) /\
  (forall u v, R_edge o u v = only (filter (fun e => (seen_source flipped e =? u) && (seen_target flipped e =? v)) (es a))).
Proof.
  intros n ops C. destruct (r_run ops _ _ (r_init n) C) as [R O].
  destruct (rrun R_call (R_init n) ops) as [o outs], (rrun r_step (a_init n, false) ops) as [[a f] outs']. cbn [fst snd] in R, O.
  split; [exact O|]. pose proof R as [(RI & _) _]. cbn [fst] in RI.
  split; [apply (dr_keys _ _ _ (ir_d _ _ _ RI))|]. split; [apply (drep_edges _ _ _ (ir_d _ _ _ RI))|].
  split; [intros e; apply (rrep_source _ _ _ e R)|]. split; [|intros u v; apply (rrep_edge _ _ _ u v R)].
  intros u. split; [apply (rrep_out _ _ _ u R)|]. split; [apply (rrep_in _ _ _ u R)|].
  split; apply Permutation_length; [apply (rrep_out _ _ _ u R)|apply (rrep_in _ _ _ u R)].
Qed.
Print Assumptions C109_reverse_interleaved.

(** The calls of reverse_graph change no result of the other calls: the stored graph is the one of the program without them. *)
Theorem C109_reverse_invisible_to_mutators : forall n ops, r_closed (a_init n, false) ops ->
  let '(o, outs) := rrun R_call (R_init n) ops in
  let '(g, outs') := run IG_call (IG_init n) (plain_ops ops) in
  plain_outs ops outs = outs' /\ IG_vertices (ro_graph o) = IG_vertices g /\ Permutation (IG_edges (ro_graph o)) (IG_edges g).
Proof.
  intros n ops C. destruct (r_run ops _ _ (r_init n) C) as [R O]. destruct (r_step_plain ops (a_init n, false)) as [A B].
  destruct (incidence_run n (plain_ops ops) (r_closed_plain ops _ C)) as [R' O'].
  destruct (rrun R_call (R_init n) ops) as [o outs], (run IG_call (IG_init n) (plain_ops ops)) as [g outs']. cbn [fst snd] in *.
  rewrite O, O'. split; [exact B|]. destruct R as [(R & _) _], R' as (R' & _). rewrite A in R.
  split; [etransitivity; [apply (dr_keys _ _ _ (ir_d _ _ _ R))|symmetry; apply (dr_keys _ _ _ (ir_d _ _ _ R'))]|].
  etransitivity; [apply (drep_edges _ _ _ (ir_d _ _ _ R))|symmetry; apply (drep_edges _ _ _ (ir_d _ _ _ R'))].
Qed.
Print Assumptions C109_reverse_invisible_to_mutators.

(** Hence add_edge(u, v) on a reversed graph adds an arc from v to u. *)
Theorem C109_add_edge_reversed_refuted : exists n u v,
  let o := fst (R_call (R_init n) RReverse) in
  exists o' e, R_call o (ROp (OpAddEdge u v)) = (o', OutEdge e true) /\ R_source o' e <> u /\ R_edge o' u v = (None, false).
Proof. exists 2, 0, 1. cbn zeta. do 2 eexists. split; [vm_compute; reflexivity|]. vm_compute. split; [discriminate|reflexivity]. Qed.
Print Assumptions C109_add_edge_reversed_refuted.
Theorem C109_add_edge_reversed : forall n ops u v, r_closed (a_init n, false) (ops ++ [ROp (OpAddEdge u v)]) ->
  let o := fst (rrun R_call (R_init n) ops) in
  exists o' e, R_call o (ROp (OpAddEdge u v)) = (o', OutEdge e true) /\
    if snd (fst (rrun r_step (a_init n, false) ops))
    then R_source o' e = v /\ R_target o' e = u /\ In e (R_out_edges o' v) /\ In e (R_in_edges o' u)
    else R_source o' e = u /\ R_target o' e = v /\ In e (R_out_edges o' u) /\ In e (R_in_edges o' v).
Proof.
  intros n ops u v C. cbn zeta.
  assert (SP : forall ops s, r_closed s (ops ++ [ROp (OpAddEdge u v)]) -> r_closed s ops /\
    In u (verts (fst (fst (rrun r_step s ops)))) /\ In v (verts (fst (fst (rrun r_step s ops))))).
  { clear. induction ops as [|op ops IH]; intros s; cbn [app r_closed rrun]; [cbn; tauto|]. intros [C CS].
    apply IH in CS. destruct CS as (CS & V). split; [split; assumption|].
    destruct (r_step s op) as [s1 x]. cbn [fst] in *. destruct (rrun r_step s1 ops). exact V. }
  destruct (SP _ _ C) as (C' & Iu & Iv). destruct (r_run ops _ _ (r_init n) C') as [R _].
  destruct (r_step_ok _ _ (ROp (OpAddEdge u v)) R (conj Iu Iv)) as [R' O].
  set (o := fst (rrun R_call (R_init n) ops)) in *. destruct (fst (rrun r_step (a_init n, false) ops)) as [a f]. cbn [fst snd] in *.
  destruct (R_call o (ROp (OpAddEdge u v))) as [o' x]. cbn [fst snd] in *. cbn [r_step i_step d_step fst snd] in R', O.
  rewrite (proj2 (mem_spec u (verts a)) Iu) in R', O. cbn [a_push fst snd] in R', O. subst x.
  set (e := Edge u v (fresh (GraphSpec.between u v (es a)))) in *. exists o', e. split; [reflexivity|].
  destruct (rrep_source _ _ _ e R') as [-> ->].
  assert (PO := fun w => rrep_out _ _ _ w R'). assert (PI := fun w => rrep_in _ _ _ w R'). cbn [es] in PO, PI.
  destruct f; cbn [seen_source seen_target source target e] in *; (split; [reflexivity|]); (split; [reflexivity|]);
    (split; [eapply Permutation_in; [symmetry; apply PO|]|eapply Permutation_in; [symmetry; apply PI|]]);
    apply filter_In; (split; [apply in_app_iff; right; left; reflexivity|apply Nat.eqb_refl]).
Qed.
Print Assumptions C109_add_edge_reversed.
Example C109_nontrivial :
  let ops := [ROp (OpAddEdge 0 1); RReverse; ROp (OpAddEdge 0 2); ROp (OpAddEdge 2 2); ROp (OpRemoveEdge (Edge 0 1 0)); RReverse;
              ROp (OpAddEdge 1 2); RReverse; ROp (OpRemoveVertex 1)] in
  r_closed (a_init 3, false) ops /\
  let o := fst (rrun R_call (R_init 3) ops) in
  R_out_edges o 2 = [Edge 0 2 0; Edge 2 2 0] /\ R_edge o 2 0 = (Some (Edge 0 2 0), true) /\ R_edge o 0 2 = (None, false).
Proof. cbn zeta. split; [vm_compute; intuition|vm_compute; auto]. Qed.

(** C110: reverse_graph should leave an undirected graph as it is. It does not: out_edges, bound to in_edges which calls
    out_edges, calls itself forever, whatever the graph. *)
Theorem C110_undirected_out_edges_diverges : forall g u,
  (forall fuel, UR_out_edges fuel (attrs_reverse attrs_init) g u = None) /\
  (** in_edges answers as before *)
  (forall fuel, UR_in_edges (S fuel) (attrs_reverse attrs_init) g u = UR_in_edges (S fuel) attrs_init g u) /\
  (** and a second reversal restores everything *)
  (forall fuel, UR_out_edges fuel (attrs_reverse (attrs_reverse attrs_init)) g u = Some (G_out_edges g u) /\
                UR_in_edges (S fuel) (attrs_reverse (attrs_reverse attrs_init)) g u = Some (UG_in_edges g u)) /\
  (forall e, UR_remove_edge (attrs_reverse (attrs_reverse attrs_init)) g e = UG_remove_edge g e).
Proof. intros g u. split; [apply UR_out_diverges|]. split; [intros [|fuel]; reflexivity|].
  split; [intros [|fuel]; split; reflexivity|reflexivity].
Qed.
Print Assumptions C110_undirected_out_edges_diverges.
Theorem C110_undirected_unchanged_refuted : exists n ops u, closed_prog u_step (a_init n) ops /\
  let g := fst (run UG_call (G_init n) ops) in
  exists l, l <> [] /\ (forall fuel, UR_out_edges fuel attrs_init g u = Some l) /\
    forall fuel, UR_out_edges fuel (attrs_reverse attrs_init) g u = None.
Proof.
  exists 2, [OpAddEdge 0 1], 0. split; [vm_compute; intuition|]. cbn zeta. exists [Edge 0 1 0]. split; [discriminate|].
  split; intros fuel; [destruct fuel; reflexivity|apply UR_out_diverges].
Qed.
Print Assumptions C110_undirected_unchanged_refuted.
(** remove_edge raises KeyError on every edge that is not a loop, and leaves the other half of the edge in the graph; it
    works on the loops. *)
Theorem C110_undirected_remove_edge : forall n ops e, closed_prog u_step (a_init n) ops ->
  let g := fst (run UG_call (G_init n) ops) in
  In e (G_out_edges g (source e)) ->
  exists g', UR_remove_edge (attrs_reverse attrs_init) g e = (g', if source e =? target e then Ok tt else Raise KeyError) /\
    (forall x, In x (G_edges g') <-> In x (G_edges g) /\ x <> e) /\
    (source e <> target e -> In (mirror e) (G_edges g')).
Proof.
  intros n ops e C. cbn zeta. destruct (undirected_run n ops C) as ((R & _) & _).
  set (g := fst (run UG_call (G_init n) ops)) in *. intros I. assert (W := ur_wf _ _ _ R).
  apply (In_out_edges g (source e) e W) in I. destruct I as [_ I].
  destruct (Nat.eqb_spec (source e) (target e)) as [Q|Q].
  - unfold UR_remove_edge, G_remove_edge. destruct (adj_remove_in _ _ _ _ W I) as (m & -> & W' & _ & _ & H).
    cbn [call_end attrs_reverse attrs_init at_source at_target]. rewrite Q, Nat.eqb_refl. eexists. split; [reflexivity|].
    split; [|congruence]. intros x. rewrite (In_edges _ x) by exact W'. rewrite (In_edges _ x) by exact W. cbn [adjacencies]. rewrite H.
    split; intros [A B]; (split; [exact A|]).
    + intros ->. apply B. reflexivity.
    + intros D. apply B. destruct x, e. cbn in D. congruence.
  - assert (N : In (norm e) (es (fst (run u_step (a_init n) ops)))) by (apply (ur_in _ _ _ R) in I; destruct e; exact I).
    destruct (UR_remove_edge_half g _ _ e R N Q) as (g' & E & H). exists g'. split; [exact E|]. split; [exact H|]. intros _.
    apply H. split; [|destruct e; cbn in *; intros K; injection K; congruence].
    rewrite (In_edges _ _) by exact W. apply (ur_in _ _ _ R). unfold mirror. cbn [source target distinguisher].
    rewrite norm_sym. destruct e; exact N.
Qed.
Print Assumptions C110_undirected_remove_edge.
Example C110_nontrivial :
  let ops := [OpAddEdge 0 1; OpAddEdge 1 1; OpAddEdge 0 1] in
  closed_prog u_step (a_init 2) ops /\
  let g := fst (run UG_call (G_init 2) ops) in
  In (Edge 1 0 1) (G_out_edges g 1) /\
  G_edges (fst (UR_remove_edge (attrs_reverse attrs_init) g (Edge 1 0 1))) = [Edge 0 1 0; Edge 0 1 1; Edge 1 0 0; Edge 1 1 0].
Proof. cbn zeta. split; [vm_compute; intuition|]. vm_compute. intuition. Qed.
(** On a DirectedGraph, out_edges raises TypeError after reverse_graph, and in_edges answers the out-edges. *)
Example C110_directed_reversed :
  let g := fst (run DG_call (G_init 2) [OpAddEdge 0 1]) in
  DR_call_star g (at_out (attrs_reverse attrs_init)) 0 = Raise TypeError /\
  DR_call_star g (at_in (attrs_reverse attrs_init)) 0 = Ok [Edge 0 1 0].
Proof. vm_compute. auto. Qed.
