(** Properties C08 (GraphView), C09 (reverse_graph), C68 (reverse_dict). *)
From Coq Require Import Relations.
From Coq Require Import Bool.
From Verif Require Import Base Graph GraphSpec GraphProofs GraphProofs2 View ViewProofs.

(** C08: a view lists exactly the selected vertices, and the selected edges with selected ends. *)
Theorem C08_view_sound : forall (E : Type) (w : @view E),
    (forall u, In u (view_vertices w) <-> In u (api_vertices (vg w)) /\ vrel w u = true) /\
    (forall e, In e (view_edges w) <-> In e (api_edges (vg w)) /\ erel w e = true /\
        vrel w (api_source (vg w) e) = true /\ vrel w (api_target (vg w) e) = true) /\
    (forall u e, In e (view_out_edges w u) <-> In e (api_out_edges (vg w) u) /\ erel w e = true /\
        vrel w (api_source (vg w) e) = true /\ vrel w (api_target (vg w) e) = true) /\
    (forall u e, In e (view_in_edges w u) <-> In e (api_in_edges (vg w) u) /\ erel w e = true /\
        vrel w (api_source (vg w) e) = true /\ vrel w (api_target (vg w) e) = true) /\
    (NoDup (api_vertices (vg w)) -> NoDup (view_vertices w)) /\
    (NoDup (api_edges (vg w)) -> NoDup (view_edges w)) /\
    view_num_vertices w = length (view_vertices w) /\ view_num_edges w = length (view_edges w) /\
    (forall u, view_out_degree w u = length (view_out_edges w u)) /\
    (forall u, view_in_degree w u = length (view_in_edges w u)).
Proof. exact @view_sound. Qed.
Print Assumptions C08_view_sound.

Theorem C08_view_default_selects_all : forall (E : Type) (g : api E),
    view_vertices (view_init g None None) = api_vertices g /\
    view_edges (view_init g None None) = api_edges g.
Proof. exact @view_init_all. Qed.
Print Assumptions C08_view_default_selects_all.

(** Views combine like sets on vertices. *)
Theorem C08_view_vertices_set_algebra : forall (E : Type) (w w' : @view E), vg w = vg w' -> forall u,
    (In u (view_vertices (view_or w w')) <-> In u (view_vertices w) \/ In u (view_vertices w')) /\
    (In u (view_vertices (view_and w w')) <-> In u (view_vertices w) /\ In u (view_vertices w')) /\
    (In u (view_vertices (view_sub w w')) <-> In u (view_vertices w) /\ ~ In u (view_vertices w')).
Proof. exact @view_vertices_set. Qed.
Print Assumptions C08_view_vertices_set_algebra.

Theorem C08_view_and_edges : forall (E : Type) (w w' : @view E), vg w = vg w' -> forall e,
    In e (view_edges (view_and w w')) <-> In e (view_edges w) /\ In e (view_edges w').
Proof. exact @view_and_edges. Qed.
Print Assumptions C08_view_and_edges.

(** The edges of [w | w']: at least the union; exactly the edges selected by one of the views with
    each end selected by one of the views. *)
Theorem C08_view_or_edges : forall (E : Type) (w w' : @view E), vg w = vg w' -> forall e,
    (In e (view_edges w) \/ In e (view_edges w') -> In e (view_edges (view_or w w'))) /\
    (In e (view_edges (view_or w w')) <->
       In e (api_edges (vg w)) /\ (erel w e = true \/ erel w' e = true) /\
       (vrel w (api_source (vg w) e) = true \/ vrel w' (api_source (vg w) e) = true) /\
       (vrel w (api_target (vg w) e) = true \/ vrel w' (api_target (vg w) e) = true)).
Proof. exact @view_or_edges. Qed.
Print Assumptions C08_view_or_edges.

(** A graph with the edges 0->1 and 1->2. *)
Definition path3 : api gedge := DG_api (fst (run DG_call (G_init 3) [OpAddEdge 0 1; OpAddEdge 1 2])).
Example C08_nontrivial :
  let w := view_init path3 (Some (fun u => u <? 2)) None in
  let w' := view_init path3 (Some (fun u => negb (u =? 0))) None in
  vg w = vg w' /\ view_vertices w = [0; 1] /\ view_edges w = [Edge 0 1 0] /\
  view_edges (view_or w w') = [Edge 0 1 0; Edge 1 2 0] /\ view_edges (view_and w w') = [].
Proof. vm_compute. intuition. Qed.

(** The claim on [w - w'] fails: an edge that is not an edge of [w] can be an edge of [w - w']. *)
Theorem C08_view_sub_edges_refuted : exists (w w' : @view gedge) e,
  vg w = vg w' /\ In e (view_edges (view_sub w w')) /\ ~ In e (view_edges w).
Proof.
  exists (view_init path3 None (Some (fun e => source e =? 0))),
         (view_init path3 (Some (fun u => u =? 0)) None), (Edge 1 2 0).
  vm_compute. intuition discriminate.
Qed.
Print Assumptions C08_view_sub_edges_refuted.

(** What the code computes: the edge predicate of [w] plays no role (when the views share their graph). *)
Theorem C08_view_sub_edges_partial : forall (E : Type) (w w' : @view E), vg w = vg w' -> forall e,
    In e (view_edges (view_sub w w')) <->
       In e (api_edges (vg w)) /\
       vrel w (api_source (vg w) e) = true /\ vrel w (api_target (vg w) e) = true /\
       vrel w' (api_source (vg w) e) = false /\ vrel w' (api_target (vg w) e) = false.
Proof. exact @view_sub_edges. Qed.
Print Assumptions C08_view_sub_edges_partial.

(** Views built with any number of [|], [&] and [-] on one graph. *)
Inductive vexp {E : Type} :=
| VLeaf (pv : nat -> bool) (pe : E -> bool)
| VOr (x y : vexp) | VAnd (x y : vexp) | VSub (x y : vexp).
Arguments vexp : clear implicits.
Fixpoint veval {E} (g : api E) (x : vexp E) : view :=
  match x with
  | VLeaf pv pe => view_init g (Some pv) (Some pe)
  | VOr x y => view_or (veval g x) (veval g y)
  | VAnd x y => view_and (veval g x) (veval g y)
  | VSub x y => view_sub (veval g x) (veval g y)
  end.
(** The selected vertices: the set expression. *)
Fixpoint vsel {E} (x : vexp E) (u : nat) : Prop :=
  match x with
  | VLeaf pv _ => pv u = true
  | VOr x y => vsel x u \/ vsel y u
  | VAnd x y => vsel x u /\ vsel y u
  | VSub x y => vsel x u /\ ~ vsel y u
  end.
(** The selected edges: also the set expression, but [x - y] selects every edge both ends of which are not selected by y. *)
Fixpoint esel {E} (src tgt : E -> nat) (x : vexp E) (e : E) : Prop :=
  match x with
  | VLeaf _ pe => pe e = true
  | VOr x y => esel src tgt x e \/ esel src tgt y e
  | VAnd x y => esel src tgt x e /\ esel src tgt y e
  | VSub x y => esel src tgt x e /\ ~ esel src tgt y e \/ ~ vsel y (src e) /\ ~ vsel y (tgt e)
  end.
Theorem C08_view_expressions : forall (E : Type) (g : api E) (x : vexp E),
  (forall u, In u (view_vertices (veval g x)) <-> In u (api_vertices g) /\ vsel x u) /\
  (forall e, In e (view_edges (veval g x)) <-> In e (api_edges g) /\ esel (api_source g) (api_target g) x e /\
     vsel x (api_source g e) /\ vsel x (api_target g e)).
Proof.
  intros E g x.
  assert (G : vg (veval g x) = g) by (induction x; cbn; auto).
  assert (V : forall x u, vrel (veval g x) u = true <-> vsel x u).
  { clear x G. induction x as [pv pe|x IHx y IHy|x IHx y IHy|x IHx y IHy]; intros u; cbn [veval view_or view_and view_sub vrel vsel];
      [reflexivity|rewrite orb_true_iff, IHx, IHy|rewrite andb_true_iff, IHx, IHy|rewrite andb_true_iff, negb_true_iff, IHx, <- IHy, not_true_iff_false];
      reflexivity. }
  assert (W : forall x e, erel (veval g x) e = true <-> esel (api_source g) (api_target g) x e).
  { clear x G. induction x as [pv pe|x IHx y IHy|x IHx y IHy|x IHx y IHy]; intros e; cbn [veval view_or view_and view_sub erel esel];
      [reflexivity|rewrite orb_true_iff, IHx, IHy; reflexivity|rewrite andb_true_iff, IHx, IHy; reflexivity|].
    assert (Gx : vg (veval g x) = g) by (clear; induction x; cbn; auto). rewrite Gx.
    rewrite orb_true_iff, !andb_true_iff, !negb_true_iff, IHx, <- IHy, <- !V, !not_true_iff_false. reflexivity. }
  destruct (view_sound (veval g x)) as (A & B & _). rewrite G in A, B. split.
  - intros u. rewrite A, V. reflexivity.
  - intros e. rewrite B, W, !V. reflexivity.
Qed.
Print Assumptions C08_view_expressions.
Example C08_expressions_nontrivial :
  let x := VOr (VSub (VLeaf (fun _ => true) (fun e => source e =? 0)) (VLeaf (fun u => u =? 0) (fun _ => false))) (VLeaf (fun u => u =? 0) (fun _ => false)) in
  view_vertices (veval path3 x) = [0; 1; 2] /\ view_edges (veval path3 x) = [Edge 0 1 0; Edge 1 2 0].
Proof. vm_compute. auto. Qed.

(** A view of an undirected graph whose edge predicate does not depend on the order of the two ends is undirected too: an edge
    leaves each of its two ends, and edges() lists it once, from its smaller end. *)
Theorem C08_undirected_view : forall n ops pv pe, closed_prog u_step (a_init n) ops ->
  (forall e, pe (Edge (target e) (source e) (distinguisher e)) = pe e) ->
  let w := view_init (UG_api (fst (run UG_call (G_init n) ops))) pv (Some pe) in
  (forall u v k, In (Edge u v k) (view_out_edges w u) <-> In (Edge v u k) (view_out_edges w v)) /\
  (forall u e, In e (view_out_edges w u) -> source e = u) /\
  (forall u, view_in_edges w u = view_out_edges w u) /\
  (forall u v k, In (Edge u v k) (view_edges w) <-> u <= v /\ In (Edge u v k) (view_out_edges w u)).
Proof.
  intros n ops pv pe C Sy. cbn zeta. destruct (undirected_run n ops C) as ((R & _) & _).
  set (g := fst (run UG_call (G_init n) ops)) in *. set (w := view_init (UG_api g) pv (Some pe)).
  assert (W := ur_wf _ _ _ R).
  assert (KE : forall u v k, view_keeps w (Edge u v k) = view_keeps w (Edge v u k)).
  { intros u v k. unfold view_keeps. cbn [w view_init erel vrel vg UG_api api_source api_target source target].
    specialize (Sy (Edge v u k)). cbn in Sy. rewrite Sy, <- !andb_assoc. f_equal. apply andb_comm. }
  assert (IO : forall u e, In e (view_out_edges w u) <-> (source e = u /\ In (distinguisher e) (asets (adjacencies g) u (target e))) /\ view_keeps w e = true).
  { intros u e. unfold view_out_edges. rewrite filter_In. cbn [w view_init vg UG_api api_out_edges]. rewrite In_out_edges by exact W. reflexivity. }
  split; [|split; [|split]].
  - intros u v k. rewrite !IO, (KE u v k). cbn [source target distinguisher]. rewrite (asets_sym g _ _ u v k R). tauto.
  - intros u e I. apply IO in I. tauto.
  - reflexivity.
  - intros u v k. rewrite IO. unfold view_edges. rewrite filter_In. cbn [w view_init vg UG_api api_edges source target distinguisher].
    fold w. unfold UG_edges. rewrite filter_In, In_edges by exact W. cbn [source target distinguisher]. rewrite Nat.leb_le. tauto.
Qed.
Print Assumptions C08_undirected_view.
Example C08_undirected_nontrivial :
  let ops := [OpAddEdge 0 1; OpAddEdge 2 1; OpAddEdge 0 2] in
  let w := view_init (UG_api (fst (run UG_call (G_init 3) ops))) None (Some (fun e => negb (source e + target e =? 2))) in
  closed_prog u_step (a_init 3) ops /\ view_edges w = [Edge 0 1 0; Edge 1 2 0] /\ view_out_edges w 2 = [Edge 2 1 0].
Proof. cbn zeta. split; [vm_compute; intuition|]. vm_compute. auto. Qed.

(** C09: reverse_graph on any reachable IncidenceGraph. *)
Theorem C09_reverse_graph : forall n ops, closed_prog i_step (a_init n) ops ->
  let g := IG_api (fst (run IG_call (IG_init n) ops)) in
  let r := reverse_graph g in
  (forall u, api_out_edges r u = api_in_edges g u) /\
  (forall u, api_in_edges r u = api_out_edges g u) /\
  (forall e, api_source r e = api_target g e /\ api_target r e = api_source g e) /\
  api_vertices r = api_vertices g /\ api_edges r = api_edges g /\
  (forall u e, In e (api_out_edges r u) -> api_source r e = u) /\
  (forall u e, In e (api_in_edges r u) -> api_target r e = u) /\
  (forall u v, clos_refl_trans nat (arc r) u v <-> clos_refl_trans nat (arc g) v u) /\
  reverse_graph r = g.
Proof. exact reverse_graph_spec. Qed.
Print Assumptions C09_reverse_graph.
Example C09_nontrivial :
  let g := IG_api (fst (run IG_call (IG_init 3) [OpAddEdge 0 1; OpAddEdge 1 2])) in
  api_out_edges (reverse_graph g) 1 = [Edge 0 1 0] /\ api_target (reverse_graph g) (Edge 0 1 0) = 0.
Proof. vm_compute. auto. Qed.

(** C68: reverse_dict. *)
Theorem C68_reverse_dict_last_key : forall (K V : Type) (HK : EqDec K) (HV : EqDec V) (d : dict K V) v k,
  dget (reverse_dict d) v = Some k <->
  exists d1 d2, d = d1 ++ (k, v) :: d2 /\ ~ In v (map snd d2).
Proof. intros. rewrite reverse_dict_get. apply last_key_spec. Qed.
Print Assumptions C68_reverse_dict_last_key.
Theorem C68_reverse_dict_involutive : forall (K V : Type) (HK : EqDec K) (HV : EqDec V) (d : dict K V),
  NoDup (dkeys d) -> NoDup (map snd d) -> reverse_dict (reverse_dict d) = d.
Proof. exact @reverse_dict_involutive. Qed.
Print Assumptions C68_reverse_dict_involutive.
Example C68_nontrivial :
  reverse_dict [(1, 10); (2, 20); (3, 10)] = [(10, 3); (20, 2)] /\
  reverse_dict (reverse_dict [(1, 10); (2, 20)]) = [(1, 10); (2, 20)].
Proof. vm_compute. auto. Qed.
