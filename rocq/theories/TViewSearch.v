(** Theorems C137: the algorithms called on a GraphView. *)
From Coq Require Import Sorted ZArith.
From Verif Require Import DijkstraAnySpec DijkstraAnyProofs Graph GraphSpec Search SearchSpec SearchProofs SearchUsers SearchUsersSpec TSearch TBFS Heap Dijkstra DijkstraSpec TDijkstra View TCross Base BaseProofs.
Open Scope nat_scope.

(** ** Specification *)
Section Spec.
  Context {E : Type}.
  Variable w : @view E.
  Notation g := (vg w).
  (** the edge is selected, and so are its ends *)
  Definition selected (e : E) : Prop := erel w e = true /\ vrel w (api_source g e) = true /\ vrel w (api_target g e) = true.
  (** a selected edge of the graph goes from u to v *)
  Definition link (u v : nat) : Prop := exists e, In e (api_out_edges g u) /\ selected e /\ api_target g e = v.
  (** the walks of the graph whose edges are all selected *)
  Definition selected_walk (u : nat) (p : list E) (v : nat) : Prop := walk_of (api_out_edges g) (api_target g) u p v /\ Forall selected p.
  (** the vertices of the view *)
  Definition shown (u : nat) : Prop := In u (api_vertices g) /\ vrel w u = true.
End Spec.
(** The same answers to all the methods *)
Definition same_api {E} (g h : api E) : Prop :=
  api_vertices g = api_vertices h /\ api_edges g = api_edges h /\ (forall u, api_out_edges g u = api_out_edges h u) /\ (forall u, api_in_edges g u = api_in_edges h u) /\
  (forall e, api_source g e = api_source h e) /\ (forall e, api_target g e = api_target h e).

(** ** Lemmas *)
Lemma filter_filter {X} (f f' : X -> bool) l : filter f (filter f' l) = filter (fun x => f' x && f x) l.
Proof. induction l as [|x l IH]; [reflexivity|]. cbn [filter]. destruct (f' x); cbn [filter andb]; rewrite IH; reflexivity. Qed.
Lemma steps_equiv {X} (R R' : X -> X -> Prop) : (forall x y, R x y <-> R' x y) -> forall x y, steps R x y <-> steps R' x y.
Proof. intros H x y. split; induction 1 as [x|x y z A S IH]; try constructor; econstructor; try eassumption; apply H, A. Qed.
Lemma plus_equiv {X} (R R' : X -> X -> Prop) : (forall x y, R x y <-> R' x y) -> forall x y, plus R x y <-> plus R' x y.
Proof. intros H x y. split; intros (z & A & S); exists z; (split; [apply H, A|]); revert S; apply steps_equiv; intros; rewrite H; reflexivity. Qed.
Lemma walk_equiv {X} (R R' : X -> X -> Prop) : (forall x y, R x y <-> R' x y) -> forall n x y, walk R n x y <-> walk R' n x y.
Proof. intros H n x y. split; induction 1 as [x|n x y z A S IH]; try constructor; econstructor; try eassumption; apply H, A. Qed.

Lemma filter_all {X} (l : list X) : filter all_edges l = l.
Proof. induction l as [|x l IH]; [reflexivity|]. cbn. rewrite IH. reflexivity. Qed.
Lemma filter_shorter {X} (f : X -> bool) l : length (filter f l) <= length l.
Proof. induction l as [|x l IH]; [reflexivity|]. cbn [filter length]. destruct (f x); cbn [length]; lia. Qed.

Section View.
  Context {E : Type}.
  Variable w : @view E.
  Notation g := (vg w).
  Notation out := (view_out_edges w).
  Notation tgt := (api_target g).

  Lemma keeps_selected e : view_keeps w e = true <-> selected w e.
  Proof. unfold view_keeps, selected. rewrite !andb_true_iff. tauto. Qed.
  Lemma In_view_out u e : In e (out u) <-> In e (api_out_edges g u) /\ selected w e.
  Proof. unfold view_out_edges. rewrite filter_In, keeps_selected. reflexivity. Qed.
  Lemma In_view_vertices u : In u (view_vertices w) <-> shown w u.
  Proof. unfold view_vertices. rewrite filter_In. reflexivity. Qed.
  Lemma arc_link u v : SearchUsersSpec.arc out tgt u v <-> link w u v.
  Proof. unfold SearchUsersSpec.arc, link. split; [intros (e & I & T); apply In_view_out in I; exists e; tauto|intros (e & I & S & T); exists e; rewrite In_view_out; tauto]. Qed.
  Lemma next_link u v : next out tgt all_edges u v <-> link w u v.
  Proof. unfold next, link, all_edges. split; [intros (e & I & _ & T); apply In_view_out in I; exists e; tauto|intros (e & I & S & T); exists e; rewrite In_view_out; tauto]. Qed.
  Lemma walk_selected u p v : walk_of out tgt u p v <-> selected_walk w u p v.
  Proof.
    unfold selected_walk. split.
    - induction 1 as [u|u e p v I W [IH1 IH2]]; [split; constructor|]. apply In_view_out in I. split; constructor; tauto.
    - intros [W F]. induction W as [u|u e p v I W IH]; [constructor|]. inversion F; subst. constructor; [apply In_view_out; tauto|apply IH; assumption].
  Qed.
End View.

(** ** C137, a view is a graph *)
Theorem C137_view_graph {E} (w : @view E) : (plain_graph (vg w) -> plain_graph (view_api w)) /\ (two_way_graph (vg w) -> two_way_graph (view_api w)).
Proof.
  assert (P : plain_graph (vg w) -> plain_graph (view_api w)).
  { intros [ND PG]. split; [apply NoDup_filter, ND|]. intros u e I. cbn in *. apply In_view_out in I. destruct I as [I (_ & S2 & S3)]. destruct (PG u e I) as (A & B & C).
    split; [exact A|]. rewrite !In_view_vertices. unfold shown. rewrite A in S2. auto. }
  split; [exact P|]. intros [PG IN]. split; [apply P, PG|]. intros v e. cbn. rewrite In_view_out. unfold view_in_edges. rewrite filter_In, keeps_selected, IN. tauto.
Qed.
(** a view of a view is the intersection of two views *)
Theorem C137_view_of_view {E} (w : @view E) pv pe : same_api (view_api (View (view_api w) pv pe)) (view_api (view_and w (View (vg w) pv pe))).
Proof.
  assert (K : forall l, filter (view_keeps (View (view_api w) pv pe)) (filter (view_keeps w) l) = filter (view_keeps (view_and w (View (vg w) pv pe))) l).
  { intros l. rewrite filter_filter. apply filter_ext. intros e. unfold view_keeps. cbn. destruct (erel w e), (vrel w (api_source (vg w) e)), (vrel w (api_target (vg w) e)), (pe e), (pv (api_source (vg w) e)), (pv (api_target (vg w) e)); reflexivity. }
  unfold same_api. cbn. split; [apply filter_filter|]. split; [apply K|]. split; [intros u; apply K|]. split; [intros u; apply K|]. split; reflexivity.
Qed.
(** reversing the graph of a view, or the view *)
Theorem C137_reverse_view {E} (w : @view E) : same_api (view_api (View (reverse_graph (vg w)) (vrel w) (erel w))) (reverse_graph (view_api w)).
Proof.
  assert (K : forall l, filter (view_keeps (View (reverse_graph (vg w)) (vrel w) (erel w))) l = filter (view_keeps w) l).
  { intros l. apply filter_ext. intros e. unfold view_keeps. cbn. rewrite <- !andb_assoc. f_equal. apply andb_comm. }
  unfold same_api. cbn. split; [reflexivity|]. split; [apply K|]. split; [intros u; apply K|]. split; [intros u; apply K|]. split; reflexivity.
Qed.

(** ** C137, the algorithms *)
Section T.
  Context {E : Type} {EE : EqDec E}.
  Variable w : @view E.
  Hypothesis PG : plain_graph (vg w).
  Notation g := (vg w).
  Notation h := (view_api w).
  Notation tgt := (api_target g).

  Lemma view_finite : finite_graph (api_out_edges h) (api_target h).
  Proof. apply plain_finite, (proj1 (C137_view_graph w)), PG. Qed.

  (** depth_first_search(view, s): the vertices reached through selected edges, and their selected edges, once each. *)
  Theorem C137_depth_first_search s : exists t c', dfs_calls (api_out_edges h) (api_target h) all_edges s [] t c' /\
    NoDup (discovered t) /\ (forall v, In v (discovered t) <-> steps (link w) s v) /\ Permutation (finished t) (discovered t) /\
    Permutation (examined t) (flat_map (fun u => filter (fun e => erel w e && vrel w (api_source g e) && vrel w (tgt e)) (api_out_edges g u)) (discovered t)).
  Proof.
    destruct (C33_depth_first_search (api_out_edges h) (api_target h) all_edges view_finite s [] (fun _ _ => eq_refl)) as (t & c' & H1 & H2 & H3 & H4 & H5 & _).
    exists t, c'. split; [exact H1|]. split; [exact H2|]. split; [|split; [exact H4|]].
    - intros v. rewrite H3. apply steps_equiv. intros x y. apply next_link.
    - rewrite H5. apply Permutation_refl'. apply flat_map_ext. intros u. apply filter_all.
  Qed.

  (** breadth_first_search(view, s): the same vertices, by increasing number of selected edges. *)
  Theorem C137_breadth_first_search s : exists t c', bfs_calls (api_out_edges h) (api_target h) all_edges [s] [] t c' /\
    NoDup (discovered t) /\ (forall v, In v (discovered t) <-> steps (link w) s v) /\ finished t = discovered t /\
    exists dist, (forall v, In v (discovered t) -> walk (link w) (dist v) s v /\ forall n, walk (link w) n s v -> dist v <= n) /\ StronglySorted le (map dist (discovered t)).
  Proof.
    assert (ND : NoDup [s]) by (constructor; [intros []|constructor]).
    destruct (C37_breadth_first_search_graph (api_out_edges h) (api_target h) (api_source h) all_edges view_finite [s] [] ND (fun _ _ _ _ => eq_refl)) as (t & c' & H1 & H2 & H3 & _ & (rest & H4 & H4' & _) & (dist & H5 & H6 & _) & _).
    pose proof (next_link w) as NL. exists t, c'. split; [exact H1|]. split; [exact H2|]. split; [|split].
    - intros v. rewrite H3, <- (steps_equiv _ _ NL). split; [intros (x & [<-|[]] & S); exact S|intros S; exists s; split; [left; reflexivity|exact S]].
    - rewrite H4, H4'. reflexivity.
    - exists dist. split; [|exact H6]. intros v I. destruct (H5 v I) as [(x & [<-|[]] & W) L]. split; [apply (walk_equiv _ _ NL), W|].
      intros n Wn. apply (L s n (or_introl eq_refl)). apply (walk_equiv _ _ NL), Wn.
  Qed.

  (** topological_sort(view): sorts the vertices of the view when the selected edges make no cycle, and raises otherwise. *)
  Theorem C137_topological_sort : exists r bound, (forall fuel, bound <= fuel -> topological_sort_of h fuel = Some r) /\
    ((exists v, plus (link w) v v) -> r = Raise RuntimeError) /\
    ((forall v, ~ plus (link w) v v) -> exists l, r = Ok l /\ NoDup l /\ (forall v, In v l <-> shown w v) /\ forall u v, link w u v -> before l u v).
  Proof.
    destruct (plain_topo h (proj1 (C137_view_graph w) PG)) as (r & b & H1 & H2 & H3 & H4). exists r, b. split; [exact H1|].
    pose proof (plus_equiv _ _ (arc_link w)) as PE. split.
    - intros (v & C). destruct H2 as [H2|H2]; [exact H2|]. exfalso. apply (proj1 H3 H2 v); [|apply PE, C].
      destruct C as (y & (e & I & (_ & S & _) & _) & _). destruct (proj2 PG v e I) as (A & B & _). apply In_view_vertices. rewrite A in S. split; assumption.
    - intros AC. destruct (proj2 H3) as (l & ->); [intros v _ C; apply (AC v), PE, C|]. exists l. split; [reflexivity|]. destruct (H4 l eq_refl) as [P B].
      split; [apply (Permutation_NoDup (Permutation_sym P)), (proj1 (C137_view_graph w) PG)|]. split.
      + intros v. rewrite <- In_view_vertices. split; apply Permutation_in; [exact P|apply Permutation_sym, P].
      + intros u v L. apply B, arc_link, L.
  Qed.

  (** strong_components(view): u and v get the same number iff each is reached from the other through selected edges. *)
  Theorem C137_strong_components : exists comp total bound, (forall fuel, bound <= fuel -> strong_components_of h fuel = Some (Ok (comp, total))) /\
    (forall u, shown w u -> exists k, comp u = Some k /\ k < total) /\ (forall k, k < total -> exists u, shown w u /\ comp u = Some k) /\
    forall u v, shown w u -> shown w v -> (comp u = comp v <-> steps (link w) u v /\ steps (link w) v u).
  Proof.
    destruct (plain_strong h (proj1 (C137_view_graph w) PG)) as (comp & total & b & H1 & H2 & H3 & H4 & _). exists comp, total, b. split; [exact H1|].
    pose proof (In_view_vertices w) as IV. pose proof (steps_equiv _ _ (arc_link w)) as SE. split; [intros u S; apply H2, IV, S|]. split.
    - intros k L. destruct (H3 k L) as (u & A & B). exists u. split; [apply IV, A|exact B].
    - intros u v A B. rewrite (H4 u v) by (apply IV; assumption). unfold connected. cbn. rewrite !SE. reflexivity.
  Qed.

  (** dijkstra_shortest_paths(view, s): the least weights of the walks of selected edges; s must be a vertex of the view. *)
  Theorem C137_dijkstra pmap weight_of compare_arg absorbing infty s fuel dist : shown w s ->
    (forall u e, In e (api_out_edges g u) -> selected w e -> pmap e = Ok (weight_of e) /\ (0 <= weight_of e)%Z) ->
    compare_arg = None \/ compare_arg = Some Less -> (0 < infty <= absorbing)%Z -> length (api_vertices g) <= fuel ->
    exists st, dijkstra_shortest_paths (api_vertices h) (api_out_edges h) (api_target h) pmap compare_arg (closed_plus absorbing) 0%Z infty no_stop fuel s dist [] [] = Some (st, Done) /\
      forall v, shown w v -> exists d, dget (d_dist st) v = Some d /\
        ((d < infty)%Z /\ (exists p, selected_walk w s p v /\ weight weight_of p = d) /\ (forall q, selected_walk w s q v -> (d <= weight weight_of q)%Z) \/
         d = infty /\ forall q, selected_walk w s q v -> (infty <= weight weight_of q)%Z).
  Proof.
    intros Hs HW HC HI HF. destruct (proj1 (C137_view_graph w) PG) as [_ PV].
    destruct (C51_distances (api_vertices h) (api_out_edges h) (api_source h) (api_target h) pmap weight_of compare_arg absorbing infty s HC HI) with (fuel := fuel) (dist := dist) as (st & R & D).
    - apply In_view_vertices, Hs.
    - intros u e _ I. destruct (PV u e I) as (A & _ & B). split; [exact A|]. split; [exact B|]. apply In_view_out in I. apply (HW u e); tauto.
    - pose proof (filter_shorter (vrel w) (api_vertices g)) as L. cbn. unfold view_vertices. lia.
    - exists st. split; [exact R|]. intros v Sv. destruct (D v) as (d & D1 & D2); [apply In_view_vertices, Sv|]. exists d. split; [exact D1|].
      destruct D2 as [(L & p & (P & PM) & PW)|(L & LB)].
      + left. split; [exact L|]. split; [exists p; split; [apply walk_selected, P|exact PW]|]. intros q Q. rewrite <- PW. apply PM, walk_selected, Q.
      + right. split; [exact L|]. intros q Q. apply LB, walk_selected, Q.
  Qed.
  Theorem C137_dijkstra_hidden_source pmap compare_arg absorbing infty s fuel : ~ shown w s -> length (api_vertices g) < fuel ->
    exists st, dijkstra_shortest_paths (api_vertices h) (api_out_edges h) (api_target h) pmap compare_arg (closed_plus absorbing) 0%Z infty no_stop fuel s [] [] [] = Some (st, Error KeyError).
  Proof.
    intros Hs HF. assert (N : mem s (api_vertices h) = false). { destruct (mem_reflect s (api_vertices h)) as [M|M]; [|reflexivity]. destruct Hs. apply In_view_vertices, M. }
    destruct (run_inv (api_vertices h) (api_out_edges h) (api_target h) pmap compare_arg (closed_plus absorbing) 0%Z infty no_stop s [] [] [] fuel) as (st & o & R & H).
    - cbn [dkeys map app]. pose proof (filter_shorter (vrel w) (api_vertices g)) as L. pose proof (NoDup_incl_length (NoDup_sof (api_vertices h)) (fun x => proj1 (In_sof x (api_vertices h)))) as L'.
      cbn in *. unfold view_vertices in *. lia.
    - exists st. rewrite R. destruct H as [(-> & _ & _ & _ & W & _)|[(-> & _)|(Fs & _)]].
      + destruct W as (l & x & _ & X & _). discriminate X.
      + reflexivity.
      + unfold first_distance in Fs. rewrite N in Fs. destruct (Fs eq_refl).
  Qed.
End T.

(** 0 -> 1 -> 2 -> 0, 0 -> 2 -> 3, 3 -> 4: without the edge 2 -> 0 and the vertex 4, the graph is acyclic. *)
Definition ex_ops : list gop := [OpAddEdge 0 1; OpAddEdge 1 2; OpAddEdge 2 0; OpAddEdge 0 2; OpAddEdge 2 3; OpAddEdge 3 4].
Definition ex_view : @view gedge := View (IG_api (fst (run IG_call (IG_init 5) ex_ops))) (fun u => negb (u =? 4)) (fun e => negb (eqb e (Edge 2 0 0))).
Example C137_example : plain_graph (vg ex_view) /\ two_way_graph (vg ex_view) /\ shown ex_view 0 /\ ~ shown ex_view 4 /\
  topological_sort_of (vg ex_view) 60 = Some (Raise RuntimeError) /\ topological_sort_of (view_api ex_view) 60 = Some (Ok [0; 1; 2; 3]) /\
  match strong_components_of (vg ex_view) 60, strong_components_of (view_api ex_view) 60 with
  | Some (Ok (c, n)), Some (Ok (c', n')) => (n, n') = (3, 4) /\ map c' [0; 1; 2; 3; 4] = [Some 3; Some 2; Some 1; Some 0; None] | _, _ => False end /\
  match dijkstra_shortest_paths (api_vertices (view_api ex_view)) (api_out_edges (view_api ex_view)) (api_target (view_api ex_view)) (fun e => Ok (Z.of_nat (target e * target e))) None (closed_plus 100) 0%Z 100%Z no_stop 6 1 [] [] [] with
  | Some (st, Done) => map (dget (d_dist st)) [0; 1; 2; 3; 4] = [Some 100%Z; Some 0%Z; Some 4%Z; Some 13%Z; None] | _ => False end.
Proof.
  assert (T : two_way_graph (vg ex_view)). { apply (proj2 (proj2 (C129_graphs 5 ex_ops))). cbn. intuition. }
  split; [exact (proj1 T)|]. split; [exact T|]. split; [vm_compute; auto|]. split; [intros [_ X]; discriminate X|]. split; [vm_compute; reflexivity|]. split; [vm_compute; reflexivity|].
  split; vm_compute; auto.
Qed.
(** a view of the view, and the reversed view *)
Example C137_views : let w := ex_view in
  view_edges w = [Edge 0 1 0; Edge 0 2 0; Edge 1 2 0; Edge 2 3 0] /\ view_edges (View (view_api w) (fun u => negb (u =? 1)) (fun _ => true)) = [Edge 0 2 0; Edge 2 3 0] /\
  topological_sort_of (reverse_graph (view_api w)) 60 = Some (Ok [3; 2; 1; 0]).
Proof. vm_compute. auto. Qed.
Print Assumptions C137_view_graph. Print Assumptions C137_view_of_view. Print Assumptions C137_reverse_view.
Print Assumptions C137_depth_first_search. Print Assumptions C137_breadth_first_search. Print Assumptions C137_topological_sort. Print Assumptions C137_strong_components.
Print Assumptions C137_dijkstra. Print Assumptions C137_dijkstra_hidden_source.
