(** Theorem C36 on strong_components. *)
From Verif Require Import Base BaseProofs Graph Search SearchSpec SearchProofs SearchProofs2 SearchUsers SearchUsersSpec SearchUsersProofs TarjanProofs TSearch TSearchUsers.

(** C36: any finite graph given by its out-edges. *)
Theorem C36_strong_components {E} `{EqDec E} (out_edges : nat -> list E) (source target : E -> nat) (vertices : list nat) (component : nat -> option nat) :
  finite_graph out_edges target -> (forall u e, In e (out_edges u) -> source e = u) ->
  exists comp total bound,
  (forall fuel, bound <= fuel -> strong_components out_edges target vertices fuel component = Some (Ok (comp, total))) /\
  (forall u, reached out_edges target vertices u -> exists k, comp u = Some k /\ k < total) /\
  (forall k, k < total -> exists u, reached out_edges target vertices u /\ comp u = Some k) /\
  (forall u v, reached out_edges target vertices u -> reached out_edges target vertices v -> (comp u = comp v <-> connected out_edges target u v)) /\
  (forall u v ku kv, reached out_edges target vertices u -> arc out_edges target u v -> comp u = Some ku -> comp v = Some kv -> kv <= ku).
Proof.
  intros FIN SRC. destruct (graph_run out_edges target FIN vertices) as (t & c' & R).
  pose proof (graph_reached out_edges source target SRC vertices t c' R) as D. pose proof (sruns_facts _ _ _ _ _ _ _ R) as F.
  destruct (tarjan_sruns out_edges target vertices [] t c' R (empty_settled out_edges target) _ (TI_init out_edges target component)) as (st & E1 & T & [NG _]).
  destruct (dfs_sources_run out_edges target all_edges (tarjan_visitor out_edges target) vertices [] t c' R) as (b & H1).
  assert (C : forall u, reached out_edges target vertices u <-> color_of c' u <> WHITE).
  { intros u. rewrite <- D. split; [intros I; rewrite (proj2 (f_disc _ _ _ F u I)); discriminate|]. intros N. destruct (in_dec' u (discovered t)) as [I|I]; [exact I|].
    rewrite (f_other _ _ _ F u I) in N. destruct (N eq_refl). }
  assert (K : forall u, reached out_edges target vertices u -> exists k, t_component st u = Some k).
  { intros u I. destruct (t_component st u) as [k|] eqn:K; [exists k; reflexivity|]. exfalso.
    assert (S : In u (t_stack st)) by (apply (ti_in _ _ _ _ T); split; [apply C, I|exact K]). destruct (ti_reach _ _ _ _ T u S) as (y & G & _). exact (NG y G). }
  exists (t_component st), (t_total st), b. split; [|split; [|split; [|split]]].
  - intros fuel L. unfold strong_components, depth_first_search_graph. replace (match vertices with [] => vertices | _ => vertices end) with vertices by (destruct vertices; reflexivity).
    rewrite H1 by exact L. unfold after. rewrite E1. reflexivity.
  - intros u I. destruct (K u I) as (k & X). exists k. split; [exact X|]. apply (ti_closed _ _ _ _ T u k); [apply C, I|exact X].
  - intros k L. destruct (ti_ids _ _ _ _ T k L) as (u & A & B). exists u. split; [apply C, A|exact B].
  - intros u v Iu Iv. destruct (K u Iu) as (k & X). destruct (K v Iv) as (k' & Y). rewrite <- (ti_scc _ _ _ _ T u v k k'); [|apply C, Iu|apply C, Iv|exact X|exact Y]. rewrite X, Y. split; congruence.
  - intros u v ku kv I A X Y. destruct (proj2 (ti_closed _ _ _ _ T u ku (proj1 (C u) I) X) v A) as (_ & k & Z & L). congruence.
Qed.

(** the discovery times: the vertices are numbered as they are discovered *)
Lemma edges_times {E} (target : E -> nat) u l : forall st, t_discover_time (tarjan_edges target u l st) = t_discover_time st /\ t_dfs_time (tarjan_edges target u l st) = t_dfs_time st.
Proof.
  unfold tarjan_edges. induction l as [|e l IH]; intros st; [split; reflexivity|]. cbn [fold_left].
  destruct (IH (match t_component st (target e) with None => set_root st u (discover_min st (t_root st u) (t_root st (target e))) | Some _ => st end)) as [-> ->].
  destruct (t_component st (target e)); split; reflexivity.
Qed.
Lemma pop_times u l : forall st st', tarjan_pop u l st = Ok st' -> t_discover_time st' = t_discover_time st /\ t_dfs_time st' = t_dfs_time st.
Proof.
  induction l as [|v l IH]; intros st st' H; [discriminate|]. cbn [tarjan_pop] in H. destruct (eqb u v); [injection H as <-; split; reflexivity|]. apply IH in H. exact H.
Qed.
Lemma calls_times {E} (out_edges : nat -> list E) (target : E -> nat) t : forall st st', calls (tarjan_visitor out_edges target) t st = Ok st' -> NoDup (discovered t) ->
  t_dfs_time st' = t_dfs_time st + length (discovered t) /\ (forall x, ~ In x (discovered t) -> t_discover_time st' x = t_discover_time st x) /\
  forall i u, nth_error (discovered t) i = Some u -> t_discover_time st' u = t_dfs_time st + i.
Proof.
  induction t as [|x t IH]; intros st st' C N.
  - injection C as <-. split; [cbn; lia|]. split; [reflexivity|]. intros [|i] u X; discriminate.
  - cbn [calls] in C. destruct (tarjan_visitor out_edges target x st) as [st1|] eqn:V; [|discriminate]. cbn [rbind] in C.
    assert (K : (exists v, x = Discover v) \/ (discovered (x :: t) = discovered t /\ t_discover_time st1 = t_discover_time st /\ t_dfs_time st1 = t_dfs_time st)).
    { destruct x; cbn [tarjan_visitor] in V; try (right; injection V as <-; split; [reflexivity|split; reflexivity]); [left; eexists; reflexivity|]. right. split; [reflexivity|].
      destruct (edges_times target v (out_edges v) st) as [A B]. destruct (eqb (t_root (tarjan_edges target v (out_edges v) st) v) v); [|injection V as <-; split; assumption].
      destruct (tarjan_pop v (t_stack (tarjan_edges target v (out_edges v) st)) (tarjan_edges target v (out_edges v) st)) as [st2|] eqn:P; [|discriminate]. cbn [rbind] in V. injection V as <-.
      cbn [t_discover_time t_dfs_time]. destruct (pop_times _ _ _ _ P) as [A' B']. split; congruence. }
    destruct K as [(v & ->)|(D & A & B)].
    + change (discovered (Discover v :: t)) with (v :: discovered t) in *. inversion N as [|? ? N1 N2]; subst. cbn [tarjan_visitor] in V. injection V as <-.
      destruct (IH _ _ C N2) as (H1 & H2 & H3). cbn [t_discover_time t_dfs_time] in *. split; [cbn [length]; lia|]. split.
      * intros y NY. rewrite H2 by (intros I; apply NY; right; exact I). apply fset_neq. intros ->. apply NY. left. reflexivity.
      * intros [|i] u X; cbn [nth_error] in X; [injection X as <-; rewrite H2 by exact N1; rewrite fset_eq; lia|]. rewrite (H3 i u X). lia.
    + rewrite D in *. destruct (IH _ _ C N) as (H1 & H2 & H3). rewrite A, B in *. split; [exact H1|]. split; assumption.
Qed.
(** C36, the whole state of the visitor at the end: [order] is the order of discovery, pmap_discover_time the rank in
    this order, pmap_root the vertex of the component that was discovered first; the stack is empty again. *)
Theorem C36_visitor {E} `{EqDec E} (out_edges : nat -> list E) (source target : E -> nat) (vertices : list nat) (component : nat -> option nat) :
  finite_graph out_edges target -> (forall u e, In e (out_edges u) -> source e = u) ->
  exists c st order bound,
  (forall fuel, bound <= fuel -> depth_first_search_graph out_edges target all_edges (tarjan_visitor out_edges target) fuel vertices vertices []
     (Tarjan 0 component (fun _ => 0) (fun _ => 0) [] 0) = Some (Ok (c, st))) /\
  (forall fuel, bound <= fuel -> strong_components out_edges target vertices fuel component = Some (Ok (t_component st, t_total st))) /\
  t_stack st = [] /\
  (NoDup order /\ (forall u, In u order <-> reached out_edges target vertices u)) /\
  (t_dfs_time st = length order /\ forall i u, nth_error order i = Some u -> t_discover_time st u = i) /\
  (forall u, reached out_edges target vertices u -> reached out_edges target vertices (t_root st u) /\ connected out_edges target u (t_root st u) /\
     forall v, reached out_edges target vertices v -> connected out_edges target u v -> t_discover_time st (t_root st u) <= t_discover_time st v) /\
  (forall u, ~ reached out_edges target vertices u -> t_component st u = component u).
Proof.
  intros FIN SRC. destruct (graph_run out_edges target FIN vertices) as (t & c' & R).
  pose proof (graph_reached out_edges source target SRC vertices t c' R) as D. pose proof (sruns_facts _ _ _ _ _ _ _ R) as F.
  destruct (tarjan_sruns' out_edges target vertices [] t c' R (empty_settled out_edges target) _ (TI_init out_edges target component)) as (st & E1 & T & [NG _] & SO).
  destruct (dfs_sources_run out_edges target all_edges (tarjan_visitor out_edges target) vertices [] t c' R) as (b & H1).
  assert (C : forall u, reached out_edges target vertices u <-> color_of c' u <> WHITE).
  { intros u. rewrite <- D. split; [intros I; rewrite (proj2 (f_disc _ _ _ F u I)); discriminate|]. intros N. destruct (in_dec' u (discovered t)) as [I|I]; [exact I|].
    rewrite (f_other _ _ _ F u I) in N. destruct (N eq_refl). }
  assert (ST : t_stack st = []).
  { destruct (t_stack st) as [|u l] eqn:S; [reflexivity|]. exfalso. destruct (ti_reach _ _ _ _ T u) as (y & G & _); [rewrite S; left; reflexivity|]. exact (NG y G). }
  assert (K : forall u, reached out_edges target vertices u -> exists k, t_component st u = Some k).
  { intros u I. destruct (t_component st u) as [k|] eqn:K; [exists k; reflexivity|]. exfalso.
    assert (S : In u (t_stack st)) by (apply (ti_in _ _ _ _ T); split; [apply C, I|exact K]). rewrite ST in S. destruct S. }
  assert (RUN : forall fuel, b <= fuel -> depth_first_search_graph out_edges target all_edges (tarjan_visitor out_edges target) fuel vertices vertices []
     (Tarjan 0 component (fun _ => 0) (fun _ => 0) [] 0) = Some (Ok (c', st))).
  { intros fuel L. unfold depth_first_search_graph. replace (match vertices with [] => vertices | _ => vertices end) with vertices by (destruct vertices; reflexivity).
    rewrite H1 by exact L. unfold after. rewrite E1. reflexivity. }
  destruct (calls_times out_edges target t _ _ E1 (f_nodup _ _ _ F)) as (T1 & _ & T3). cbn [t_dfs_time] in T1, T3.
  exists c', st, (discovered t), b. split; [exact RUN|]. split; [intros fuel L; unfold strong_components; rewrite (RUN fuel L); reflexivity|]. split; [exact ST|].
  split; [split; [apply (f_nodup _ _ _ F)|exact D]|]. split; [split; [exact T1|exact T3]|]. split.
  - intros u I. destruct (K u I) as (k & X). destruct (ti_first _ _ _ _ T u k (proj1 (C u) I) X) as (A & B & M). split; [apply C, A|]. split.
    + apply (ti_scc _ _ _ _ T u (t_root st u) k k); [apply C, I|exact A|exact X|exact B|reflexivity].
    + intros v Iv CV. destruct (K v Iv) as (k' & Y). apply M; [apply C, Iv|]. apply (ti_scc _ _ _ _ T u v k k') in CV; [congruence|apply C, I|apply C, Iv|exact X|exact Y].
  - intros u N. rewrite <- D in N. exact (SO u N).
Qed.

(** C36 for DirectedGraph, when the edges go to vertices of the graph: on the vertices of the graph. *)
Theorem C36_graph g component : (forall u e, In e (G_out_edges g u) -> In (target e) (G_vertices g)) ->
  let out := G_out_edges g in
  exists comp total bound,
  (forall fuel, bound <= fuel -> strong_components out target (G_vertices g) fuel component = Some (Ok (comp, total))) /\
  (forall u, In u (G_vertices g) -> exists k, comp u = Some k /\ k < total) /\
  (forall k, k < total -> exists u, In u (G_vertices g) /\ comp u = Some k) /\
  (forall u v, In u (G_vertices g) -> In v (G_vertices g) -> (comp u = comp v <-> connected out target u v)) /\
  (forall u e ku kv, In u (G_vertices g) -> In e (out u) -> comp u = Some ku -> comp (target e) = Some kv -> kv <= ku).
Proof.
  intros CL out. destruct (C36_strong_components out source target (G_vertices g) component (G_finite g) (G_source g)) as (comp & total & b & H1 & H2 & H3 & H4 & H5).
  assert (R : forall v, reached out target (G_vertices g) v <-> In v (G_vertices g)).
  { intros v. split; [|intros I; exists v; split; [exact I|constructor]]. intros (s & I & S). induction S as [s|s y z (e & A & <-) S IH]; [exact I|]. apply IH, (CL s e A). }
  exists comp, total, b. split; [exact H1|]. split; [intros u I; apply H2, R, I|]. split.
  - intros k L. destruct (H3 k L) as (u & A & B). exists u. split; [apply R, A|exact B].
  - split; [intros u v A B; apply H4; apply R; assumption|]. intros u e ku kv A I. apply H5; [apply R, A|exists e; auto].
Qed.
(** two components {0, 1, 2} and {3, 4}, linked by 2 -> 3, and {5} *)
Example C36_example :
  let g := fst (run DG_call (G_init 6) [OpAddEdge 0 1; OpAddEdge 1 2; OpAddEdge 2 0; OpAddEdge 2 3; OpAddEdge 3 4; OpAddEdge 4 3; OpAddEdge 1 4]) in
  (forall u e, In e (G_out_edges g u) -> In (target e) (G_vertices g)) /\
  match strong_components (G_out_edges g) target (G_vertices g) 60 (fun _ => None) with
  | Some (Ok (comp, total)) => (map comp (G_vertices g), total) = ([Some 1; Some 1; Some 1; Some 0; Some 0; Some 2], 3)
  | _ => False
  end.
Proof.
  split; [|vm_compute; reflexivity]. intros u e. do 6 (destruct u as [|u]; [vm_compute; intuition (subst; cbn; auto 10)|]). cbn. intros [].
Qed.
(** the visitor at the end: 0 is the root of {0, 1, 2}, 4 (reached from 1) that of {3, 4} *)
Example C36_visitor_example :
  let g := fst (run DG_call (G_init 6) [OpAddEdge 0 1; OpAddEdge 1 4; OpAddEdge 1 2; OpAddEdge 2 0; OpAddEdge 2 3; OpAddEdge 3 4; OpAddEdge 4 3]) in
  match depth_first_search_graph (G_out_edges g) target all_edges (tarjan_visitor (G_out_edges g) target) 60 (G_vertices g) (G_vertices g) [] (Tarjan 0 (fun _ => None) (fun _ => 0) (fun _ => 0) [] 0) with
  | Some (Ok (_, st)) => (map (t_root st) (G_vertices g), map (t_discover_time st) (G_vertices g), t_stack st) = ([0; 0; 0; 4; 4; 5], [0; 1; 4; 3; 2; 5], [])
  | _ => False
  end.
Proof. vm_compute. reflexivity. Qed.
Print Assumptions C36_strong_components.
Print Assumptions C36_visitor.
Print Assumptions C36_graph.
