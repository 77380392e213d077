(** Theorems C140 on graph_copy into a graph that already has vertices, possibly the copied graph itself. *)
From Verif Require Import Graph GraphSpec GraphProofs GraphProofs2 GraphProofs3 Search SearchSpec SearchProofs SearchUsers SearchUsersSpec TSearch TSearchUsers TViewCopy SelfCopy Base BaseProofs.
#[local] Arguments dkeys : simpl never.

(** ** A search on a graph that grows elsewhere *)
Section Still.
  Context {E St : Type}.
  Variables (live : St -> nat -> list E) (out : nat -> list E) (target : E -> nat) (push : E -> bool) (vis : event E -> St -> res St) (ok : nat -> Prop) (P : St -> Prop).
  Hypothesis still : forall st u, P st -> ok u -> live st u = out u.
  Hypothesis stay : forall u e, ok u -> In e (out u) -> ok (target e).
  Hypothesis ask : forall e st, vis (Ask e) st = Ok st.
  Hypothesis keep : forall x st st', P st -> vis x st = Ok st' -> P st'.

  Lemma calls_keep l : forall st st', P st -> calls vis l st = Ok st' -> P st'.
  Proof.
    induction l as [|x l IH]; intros st st' H C; [injection C as <-; exact H|]. cbn [calls] in C. destruct (vis x st) as [st1|] eqn:V; [|discriminate].
    cbn [rbind] in C. eapply IH; [eapply keep; [exact H|exact V]|exact C].
  Qed.
  Lemma live_same st u : P st -> ok u -> live_edges live push st u = u_edges out push u.
  Proof. intros H O. unfold live_edges, u_edges. rewrite (still st u H O). reflexivity. Qed.
  Lemma live_loop_same fuel : forall cur stack c st, P st ->
    (forall u i n l, cur = Some (u, i, n, l) -> ok u /\ l = u_edges out push u) -> (forall u i n, In (u, i, n) stack -> ok u) ->
    live_loop live target push vis fuel cur stack c st = dfs_loop out target push vis fuel (option_map fst cur) stack c st.
  Proof.
    induction fuel as [|fuel IH]; intros cur stack c st H HC HS; [reflexivity|]. cbn [live_loop dfs_loop]. destruct cur as [[[[u i] n] l]|]; cbn [option_map fst].
    - destruct (HC u i n l eq_refl) as [Ou ->]. destruct (eqb i n).
      + destruct (vis (Finish u) st) as [st1|] eqn:V; [|reflexivity]. rewrite IH; [reflexivity|eapply keep; eassumption|discriminate|exact HS].
      + destruct (nth_error (u_edges out push u) i) as [e|] eqn:NE; [|reflexivity].
        assert (Ov : ok (target e)). { apply nth_error_In in NE. apply filter_In in NE. apply (stay u e Ou), NE. }
        destruct (color_read c (target e)) as [[| |] c1].
        * rewrite calls_split. destruct (calls vis [Examine e; Tree e; Discover (target e)] st) as [st1|] eqn:V; [|reflexivity]. cbn [rbind].
          rewrite (calls_asks out vis ask). pose proof (calls_keep _ _ _ H V) as H1. rewrite (live_same st1 _ H1 Ov). rewrite IH; [reflexivity|exact H1| |].
          -- intros u' i' n' l' X. injection X as <- _ _ <-. split; [exact Ov|reflexivity].
          -- intros u' i' n' [X|X]; [injection X as <- _ _; exact Ou|eapply HS; exact X].
        * destruct (calls vis [Examine e; Back e] st) as [st1|] eqn:V; [|reflexivity]. rewrite IH; [reflexivity|eapply calls_keep; eassumption| |exact HS].
          intros u' i' n' l' X. injection X as <- _ _ <-. split; [exact Ou|reflexivity].
        * destruct (calls vis [Examine e; ForwardOrCross e] st) as [st1|] eqn:V; [|reflexivity]. rewrite IH; [reflexivity|eapply calls_keep; eassumption| |exact HS].
          intros u' i' n' l' X. injection X as <- _ _ <-. split; [exact Ou|reflexivity].
    - destruct stack as [|[[u i] n] stack]; [reflexivity|]. rewrite (calls_asks out vis ask). assert (Ou : ok u) by (eapply HS; left; reflexivity).
      rewrite IH; [reflexivity|exact H| |].
      + intros u' i' n' l' X. injection X as <- _ _ <-. split; [exact Ou|apply live_same; assumption].
      + intros u' i' n' X. eapply HS. right. exact X.
  Qed.
  Lemma live_dfs_same fuel s c st : P st -> ok s -> live_depth_first_search live target push vis fuel s c st = depth_first_search out target push vis fuel s c st.
  Proof.
    intros H Os. unfold live_depth_first_search, depth_first_search. rewrite calls_split. destruct (calls vis [Start s; Discover s] st) as [st1|] eqn:V; [|reflexivity].
    cbn [rbind]. rewrite (calls_asks out vis ask). pose proof (calls_keep _ _ _ H V) as H1. rewrite (live_same st1 s H1 Os).
    rewrite live_loop_same; [reflexivity|exact H1|discriminate|]. intros u i n [X|[]]. injection X as <- _ _. exact Os.
  Qed.
End Still.

(** ** The copy of a graph into itself *)
Section Self.
  Variables (vrelevant : nat -> bool) (erelevant : gedge -> bool) (add_edge : graph -> nat -> nat -> graph * res (gedge * bool)).
  Hypothesis edge_keeps : forall g u v g' r, add_edge g u v = (g', Ok r) -> last_vertex_id g' = last_vertex_id g /\ forall x, x <> u -> x <> v -> G_out_edges g' x = G_out_edges g x.
  Variable g : graph.
  Notation copying := (@copying gedge graph).
  Notation vis := (copy_visitor source target vrelevant erelevant G_add_vertex add_edge).
  Definition grown (st : copying) : Prop :=
    (forall u, u < last_vertex_id g -> G_out_edges (cp_dup st) u = G_out_edges g u) /\ last_vertex_id g <= last_vertex_id (cp_dup st) /\
    (forall x y, In (x, y) (cp_vertices st) -> last_vertex_id g <= y).
  Lemma In_dset' {K V} `{EqDec K} (d : dict K V) k v x y : In (x, y) (dset d k v) -> y = v \/ In (x, y) d.
  Proof.
    induction d as [|[a b] d IH]; cbn [dset]; [intros [X|[]]; injection X as _ <-; left; reflexivity|]. destruct (eqb k a).
    - intros [X|X]; [injection X as _ <-; left; reflexivity|right; right; exact X].
    - intros [X|X]; [right; left; exact X|]. destruct (IH X) as [Y|Y]; [left; exact Y|right; right; exact Y].
  Qed.
  Lemma dup_grown u st st' v : grown st -> dup_vertex G_add_vertex u st = Ok (st', v) -> grown st' /\ last_vertex_id g <= v.
  Proof.
    intros (A & B & C) D. unfold dup_vertex, G_add_vertex in D. injection D as <- <-. split; [|exact B]. split; [|split].
    - intros x L. cbn [cp_dup]. unfold G_out_edges at 1. cbn [adjacencies]. rewrite dget_dset_other by lia. apply A, L.
    - cbn. lia.
    - cbn [cp_vertices]. intros x y I. apply In_dset' in I. destruct I as [->|I]; [exact B|eapply C; exact I].
  Qed.
  Lemma vis_grown x st st' : grown st -> vis x st = Ok st' -> grown st'.
  Proof.
    intros G V. destruct x; cbn [copy_visitor] in V; try (injection V as <-; exact G).
    - destruct (dup_vertex G_add_vertex v st) as [[st1 u]|] eqn:D; [|discriminate]. injection V as <-. eapply dup_grown; eassumption.
    - destruct (erelevant e && vrelevant (target e)); [|injection V as <-; exact G]. unfold copy_edge in V. destruct (dget (cp_vertices st) (source e)) as [u_dup|] eqn:GU; [|discriminate].
      assert (X : exists st1 v_dup, (if mem (target e) (cp_done st) then match dget (cp_vertices st) (target e) with Some v_dup => Ok (st, v_dup) | None => Raise KeyError end
        else dup_vertex G_add_vertex (target e) st) = Ok (st1, v_dup) /\ grown st1 /\ last_vertex_id g <= v_dup).
      { destruct (mem (target e) (cp_done st)).
        - destruct (dget (cp_vertices st) (target e)) as [v|] eqn:GV; [|discriminate]. exists st, v. split; [reflexivity|]. split; [exact G|]. apply dget_In in GV. eapply G, GV.
        - destruct (dup_vertex G_add_vertex (target e) st) as [[st1 v]|] eqn:D; [|discriminate]. exists st1, v. split; [reflexivity|]. eapply dup_grown; eassumption. }
      destruct X as (st1 & v_dup & X1 & (A & B & C) & X3). rewrite X1 in V. cbn [rbind] in V. destruct (add_edge (cp_dup st1) u_dup v_dup) as [g' [[e' b]|]] eqn:AE; [|discriminate].
      injection V as <-. destruct (edge_keeps _ _ _ _ _ AE) as (L & K). apply dget_In in GU. pose proof (proj2 (proj2 G) _ _ GU) as LU. split; [|split].
      + cbn [cp_dup]. intros u Lu. rewrite K by lia. apply A, Lu.
      + cbn [cp_dup]. rewrite L. exact B.
      + exact C.
  Qed.
  Lemma self_same fuel s : s < last_vertex_id g -> (forall u e, u < last_vertex_id g -> In e (G_out_edges g u) -> target e < last_vertex_id g) ->
    graph_copy_self vrelevant erelevant add_edge fuel s g = graph_copy (G_out_edges g) source target vrelevant erelevant G_add_vertex add_edge fuel s g.
  Proof.
    intros Ls ST. unfold graph_copy_self, graph_copy. f_equal. apply (live_dfs_same _ _ _ _ _ (fun u => u < last_vertex_id g) grown).
    - intros st u (A & _) L. apply A, L.
    - exact ST.
    - reflexivity.
    - intros x st st' G V. eapply vis_grown; eassumption.
    - split; [reflexivity|]. split; [apply le_n|intros x y []].
    - exact Ls.
  Qed.
End Self.

Lemma DG_edge_keeps g u v g' r : G_add_edge g u v = (g', Ok r) -> last_vertex_id g' = last_vertex_id g /\ forall x, x <> u -> x <> v -> G_out_edges g' x = G_out_edges g x.
Proof.
  unfold G_add_edge. destruct (dget (adjacencies g) u) as [a|]; [|discriminate]. destruct (match dget a v with None => (0, [0]) | Some s => _ end) as [n s']. intros X. injection X as <- _.
  split; [reflexivity|]. intros x N _. unfold G_out_edges. cbn [adjacencies]. rewrite dget_dset_other by congruence. reflexivity.
Qed.
Lemma UG_edge_keeps g u v g' r : UG_add_edge g u v = (g', Ok r) -> last_vertex_id g' = last_vertex_id g /\ forall x, x <> u -> x <> v -> G_out_edges g' x = G_out_edges g x.
Proof.
  unfold UG_add_edge. destruct (G_add_edge g (Nat.min u v) (Nat.max u v)) as [g1 [[e b]|]] eqn:A; [|discriminate]. destruct (DG_edge_keeps _ _ _ _ _ A) as (L & K).
  destruct (dget (adjacencies g1) (Nat.max u v)) as [a|]; [|discriminate]. intros X. injection X as <- _. split; [exact L|]. intros x N1 N2.
  rewrite <- (K x) by lia. unfold G_out_edges. cbn [adjacencies]. rewrite dget_dset_other by lia. reflexivity.
Qed.

(** C140, into another graph [g0]. *)
Theorem C140_directed_into n ops m ops0 s vrelevant erelevant :
  let g := fst (run DG_call (G_init n) ops) in
  let g0 := fst (run DG_call (G_init m) ops0) in
  let next := next (G_out_edges g) target (fun e => erelevant e && vrelevant (target e)) in exists g' pv pe done bound,
  (forall fuel, bound <= fuel -> graph_copy (G_out_edges g) source target vrelevant erelevant G_add_vertex G_add_edge fuel s g0 = Some (Ok (Copying g' pv pe done))) /\
  (NoDup (map fst pv) /\ (forall v, In v (map fst pv) <-> steps next s v)) /\
  (NoDup (G_vertices g') /\ G_vertices g' = G_vertices g0 ++ map snd pv) /\
  (NoDup (map fst pe) /\ (forall e, In e (map fst pe) <-> steps next s (source e) /\ In e (G_edges g) /\ erelevant e = true /\ vrelevant (target e) = true)) /\
  (NoDup (G_edges g') /\ Permutation (G_edges g0 ++ map snd pe) (G_edges g')) /\
  forall e e', In (e, e') pe -> In (source e, source e') pv /\ In (target e, target e') pv.
Proof.
  intros g g0 nx. pose proof (DG_wf n ops : wf_adj (adjacencies g)) as W.
  destruct (C40_graph_copy_into (G_out_edges g) source target (G_finite g) (G_source g) vrelevant erelevant m ops0 s (fun u => NoDup_out_edges g u W)) as (g' & pv & pe & done & k & H1 & H2 & H3 & (H4 & H4') & H5 & H6).
  exists g', pv, pe, done, k. split; [exact H1|]. split; [exact H2|]. split; [exact H3|]. split; [|split; [exact H5|exact H6]]. split; [exact H4|]. intros e. rewrite H4'. split.
  - intros (u & I & J & K). pose proof (G_source g u e J) as S. rewrite S. split; [exact I|]. split; [|exact K]. apply In_edges; [exact W|]. apply In_out_edges in J; [|exact W]. rewrite S. apply J.
  - intros (I & J & K). exists (source e). split; [exact I|]. split; [|exact K]. apply In_out_edges; [exact W|]. split; [reflexivity|]. apply (In_edges g e W), J.
Qed.
Theorem C140_undirected_into n ops m ops0 s vrelevant erelevant : closed_prog u_step (a_init n) ops -> closed_prog u_step (a_init m) ops0 ->
  let g := fst (run UG_call (G_init n) ops) in
  let g0 := fst (run UG_call (G_init m) ops0) in
  let next := next (G_out_edges g) target (fun e => erelevant e && vrelevant (target e)) in exists g' pv pe done bound,
  (forall fuel, bound <= fuel -> graph_copy (G_out_edges g) source target vrelevant erelevant G_add_vertex UG_add_edge fuel s g0 = Some (Ok (Copying g' pv pe done))) /\
  (NoDup (map fst pv) /\ (forall v, In v (map fst pv) <-> steps next s v)) /\
  (NoDup (G_vertices g') /\ G_vertices g' = G_vertices g0 ++ map snd pv) /\
  (NoDup (map fst pe) /\ (forall u v k, In (Edge u v k) (map fst pe) <->
     steps next s u /\ In (Edge (Nat.min u v) (Nat.max u v) k) (UG_edges g) /\ erelevant (Edge u v k) = true /\ vrelevant v = true)) /\
  (NoDup (UG_edges g') /\ Permutation (UG_edges g0 ++ map snd pe) (UG_edges g')) /\
  forall e e', In (e, e') pe -> exists u' v', In (source e, u') pv /\ In (target e, v') pv /\ source e' = Nat.min u' v' /\ target e' = Nat.max u' v'.
Proof.
  intros CP CP0 g g0 nx. pose proof (UG_wf n ops CP : wf_adj (adjacencies g)) as W. destruct (undirected_symmetric n ops CP) as (_ & _ & _ & SY & _). fold g in SY.
  destruct (C40_graph_copy_undirected_into (G_out_edges g) source target (G_finite g) (G_source g) vrelevant erelevant m ops0 s CP0 (fun u => NoDup_out_edges g u W)) as (g' & pv & pe & done & k & H1 & H2 & H3 & (H4 & H4') & H5 & H6).
  exists g', pv, pe, done, k. split; [exact H1|]. split; [exact H2|]. split; [exact H3|]. split; [|split; [exact H5|exact H6]]. split; [exact H4|]. intros u v x. rewrite H4', <- SY. split.
  - intros (u' & I & J & K). pose proof (G_source g u' _ J) as S. cbn in S. subst u'. auto.
  - intros (I & J & K). exists u. auto.
Qed.
(** the copy of 0 -> 1 into a graph that has the edge 0 -> 0 *)
Example C140_into_example :
  match graph_copy (G_out_edges (fst (run DG_call (G_init 2) [OpAddEdge 0 1]))) source target (fun _ => true) (fun _ => true) G_add_vertex G_add_edge 40 0 (fst (run DG_call (G_init 1) [OpAddEdge 0 0])) with
  | Some (Ok st) => (cp_vertices st, G_edges (cp_dup st)) = ([(0, 1); (1, 2)], [Edge 0 0 0; Edge 1 2 0])
  | _ => False end.
Proof. vm_compute. reflexivity. Qed.

(** C140: the copy is beside the graph; [pv] and [pe] are one-to-one from what is reached to what is new. *)
Theorem C140_directed n ops s vrelevant erelevant :
  let g := fst (run DG_call (G_init n) ops) in
  let next := next (G_out_edges g) target (fun e => erelevant e && vrelevant (target e)) in
  In s (G_vertices g) -> (forall e, In e (G_edges g) -> In (target e) (G_vertices g)) -> exists g' pv pe done bound,
  (forall fuel, bound <= fuel -> graph_copy_self vrelevant erelevant G_add_edge fuel s g = Some (Ok (Copying g' pv pe done))) /\
  (NoDup (map fst pv) /\ (forall v, In v (map fst pv) <-> steps next s v)) /\
  (NoDup (G_vertices g') /\ G_vertices g' = G_vertices g ++ map snd pv) /\
  (NoDup (map fst pe) /\ (forall e, In e (map fst pe) <-> steps next s (source e) /\ In e (G_edges g) /\ erelevant e = true /\ vrelevant (target e) = true)) /\
  (NoDup (G_edges g') /\ Permutation (G_edges g ++ map snd pe) (G_edges g')) /\
  forall e e', In (e, e') pe -> In (source e, source e') pv /\ In (target e, target e') pv.
Proof.
  intros g nx Is CL. pose proof (DG_wf n ops : wf_adj (adjacencies g)) as W. pose proof (proj1 (directed_run n ops)) as (DR & L & C). fold g in DR, L.
  assert (LT : forall v, In v (G_vertices g) -> v < last_vertex_id g). { intros v I. rewrite L. apply C. rewrite <- (dr_keys _ _ _ DR). exact I. }
  destruct (C40_graph_copy_into (G_out_edges g) source target (G_finite g) (G_source g) vrelevant erelevant n ops s (fun u => NoDup_out_edges g u W)) as (g' & pv & pe & done & k & H1 & H2 & H3 & (H4 & H4') & H5 & H6).
  fold g in H1, H2, H3, H4', H5. exists g', pv, pe, done, k. split; [|split; [exact H2|]; split; [exact H3|]; split; [|split; [exact H5|exact H6]]].
  - intros fuel LE. rewrite self_same; [apply H1, LE|apply DG_edge_keeps|apply LT, Is|]. intros u e _ I. apply LT, CL. apply (In_edges g e W). apply In_out_edges in I; [|exact W]. destruct I as [<- I]. exact I.
  - split; [exact H4|]. intros e. rewrite H4'. split.
    + intros (u & I & J & K). pose proof (G_source g u e J) as S. rewrite S. split; [exact I|]. split; [|exact K]. apply In_edges; [exact W|]. apply In_out_edges in J; [|exact W]. rewrite S. apply J.
    + intros (I & J & K). exists (source e). split; [exact I|]. split; [|exact K]. apply In_out_edges; [exact W|]. split; [reflexivity|]. apply (In_edges g e W), J.
Qed.
Theorem C140_undirected n ops s vrelevant erelevant : closed_prog u_step (a_init n) ops ->
  let g := fst (run UG_call (G_init n) ops) in
  let next := next (G_out_edges g) target (fun e => erelevant e && vrelevant (target e)) in
  In s (G_vertices g) -> exists g' pv pe done bound,
  (forall fuel, bound <= fuel -> graph_copy_self vrelevant erelevant UG_add_edge fuel s g = Some (Ok (Copying g' pv pe done))) /\
  (NoDup (map fst pv) /\ (forall v, In v (map fst pv) <-> steps next s v)) /\
  (NoDup (G_vertices g') /\ G_vertices g' = G_vertices g ++ map snd pv) /\
  (NoDup (map fst pe) /\ (forall u v k, In (Edge u v k) (map fst pe) <->
     steps next s u /\ In (Edge (Nat.min u v) (Nat.max u v) k) (UG_edges g) /\ erelevant (Edge u v k) = true /\ vrelevant v = true)) /\
  (NoDup (UG_edges g') /\ Permutation (UG_edges g ++ map snd pe) (UG_edges g')) /\
  forall e e', In (e, e') pe -> exists u' v', In (source e, u') pv /\ In (target e, v') pv /\ source e' = Nat.min u' v' /\ target e' = Nat.max u' v'.
Proof.
  intros CP g nx Is. pose proof (UG_wf n ops CP : wf_adj (adjacencies g)) as W. destruct (undirected_symmetric n ops CP) as (_ & _ & _ & SY & _). fold g in SY.
  pose proof (proj1 (undirected_run n ops CP)) as (DR & L & C). fold g in DR, L.
  assert (LT : forall v, In v (G_vertices g) -> v < last_vertex_id g). { intros v I. rewrite L. apply C. rewrite <- (ur_keys _ _ _ DR). exact I. }
  assert (CL : forall u e, In e (G_out_edges g u) -> In (target e) (G_vertices g)).
  { intros u [x v k] I. pose proof (G_source g u _ I) as S. cbn in S. subst x. apply In_out_edges in I; [|exact W]. destruct I as [_ I]. cbn [distinguisher source target] in *.
    rewrite (ur_in _ _ _ DR) in I. replace (norm (Edge u v k)) with (norm (Edge v u k)) in I by (unfold norm; cbn; rewrite Nat.min_comm, Nat.max_comm; reflexivity).
    rewrite <- (ur_in _ _ _ DR) in I. unfold asets in I. unfold G_vertices. destruct (dget (adjacencies g) v) eqn:D; [apply dget_In in D; apply in_map_iff; eexists; split; [|exact D]; reflexivity|destruct I]. }
  destruct (C40_graph_copy_undirected_into (G_out_edges g) source target (G_finite g) (G_source g) vrelevant erelevant n ops s CP (fun u => NoDup_out_edges g u W)) as (g' & pv & pe & done & k & H1 & H2 & H3 & (H4 & H4') & H5 & H6).
  fold g in H1, H2, H3, H4', H5. exists g', pv, pe, done, k. split; [|split; [exact H2|]; split; [exact H3|]; split; [|split; [exact H5|exact H6]]].
  - intros fuel LE. rewrite self_same; [apply H1, LE|apply UG_edge_keeps|apply LT, Is|]. intros u e _ I. eapply LT, CL, I.
  - split; [exact H4|]. intros u v x. rewrite H4', <- SY. split.
    + intros (u' & I & J & K). pose proof (G_source g u' _ J) as S. cbn in S. subst u'. auto.
    + intros (I & J & K). exists u. auto.
Qed.
(** the copy, from 0, of 0 -> 1, 1 -> 0, 1 -> 1, 2 -> 0 beside it *)
Example C140_example : let g := fst (run DG_call (G_init 3) [OpAddEdge 0 1; OpAddEdge 1 0; OpAddEdge 1 1; OpAddEdge 2 0]) in
  In 0 (G_vertices g) /\ (forall e, In e (G_edges g) -> In (target e) (G_vertices g)) /\
  match graph_copy_self (fun _ => true) (fun _ => true) G_add_edge 40 0 g with
  | Some (Ok st) => (cp_vertices st, G_edges (cp_dup st)) = ([(0, 3); (1, 4)], [Edge 0 1 0; Edge 1 0 0; Edge 1 1 0; Edge 2 0 0; Edge 3 4 0; Edge 4 3 0; Edge 4 4 0])
  | _ => False end.
Proof.
  split; [left; reflexivity|]. split; [|vm_compute; reflexivity]. intros e I. vm_compute in I. vm_compute. decompose [or] I; subst; cbn; auto; contradiction.
Qed.
(** 0 - 1 in an UndirectedGraph *)
Example C140_undirected_example : closed_prog u_step (a_init 2) [OpAddEdge 1 0] /\
  match graph_copy_self (fun _ => true) (fun _ => true) UG_add_edge 40 0 (fst (run UG_call (G_init 2) [OpAddEdge 1 0])) with
  | Some (Ok st) => (cp_vertices st, UG_edges (cp_dup st)) = ([(0, 2); (1, 3)], [Edge 0 1 0; Edge 2 3 0; Edge 2 3 1])
  | _ => False end.
Proof. split; [cbn; auto|vm_compute; reflexivity]. Qed.

(** ** A dangling edge to the identifier that the first copy takes *)
Notation T := (fun _ => true).
Notation self_loop := (live_loop (fun st u => G_out_edges (cp_dup st) u) target (fun e : gedge => T e && T (target e)) (copy_visitor source target T T G_add_vertex G_add_edge)).
(** [u], the copy of the vertex before, is met for the first time: its only edge goes to its own copy *)
Record chased (u : nat) (c : colors) (st : @copying gedge graph) : Prop := {
  ch_copy : dget (cp_vertices st) u = Some (S u);
  ch_done : forall x, In x (cp_done st) -> x <= u;
  ch_next : last_vertex_id (cp_dup st) = S (S u);
  ch_adj : dget (adjacencies (cp_dup st)) (S u) = Some [];
  ch_color : forall x, u < x -> color_of c x = WHITE }.
Lemma chase fuel : forall u stack c st, chased u c st -> self_loop fuel (Some (u, 0, 1, [Edge u (S u) 0])) stack c st = None.
Proof.
  induction fuel as [|fuel IH]; intros u stack c st [A B C D F]; [reflexivity|]. cbn [live_loop]. change (eqb 0 1) with false. cbn match. cbn [nth_error target].
  destruct (color_read_white c (S u) (F (S u) (Nat.lt_succ_diag_r u))) as [R1 R2]. destruct (color_read c (S u)) as [x c1]. cbn [fst snd] in R1, R2. subst x.
  assert (M : mem (S u) (cp_done st) = false). { destruct (mem_reflect (S u) (cp_done st)) as [I|I]; [|reflexivity]. apply B in I. lia. }
  cbn [calls copy_visitor andb rbind]. unfold copy_edge. cbn [source target]. rewrite A, M. unfold dup_vertex, G_add_vertex. rewrite C. cbn [rbind cp_dup cp_vertices cp_edges cp_done].
  unfold G_add_edge. cbn [adjacencies last_vertex_id]. rewrite dget_dset_other by lia. rewrite D. cbn [dget dset rbind cp_dup]. rewrite R2.
  unfold live_edges, G_out_edges. cbn [cp_dup adjacencies]. rewrite dget_dset_same. cbn [star flat_map map app filter andb length].
  apply IH. constructor; cbn [cp_dup cp_vertices cp_edges cp_done last_vertex_id adjacencies].
  - apply dget_dset_same.
  - intros x I. apply In_sadd in I. destruct I as [->|I]; [apply le_n|apply B in I; lia].
  - reflexivity.
  - rewrite dget_dset_other by lia. apply dget_dset_same.
  - intros x L. rewrite color_dset. destruct (eqb_spec x (S u)) as [->|_]; [lia|]. apply F. lia.
Qed.
(** C140 without the hypothesis on the targets: the copy never ends. *)
Theorem C140_dangling : exists n ops s, let g := fst (run DG_call (G_init n) ops) in
  In s (G_vertices g) /\ forall fuel, graph_copy_self T T G_add_edge fuel s g = None.
Proof.
  exists 1, [OpAddEdge 0 1], 0. split; [left; reflexivity|]. intros [|fuel]; [reflexivity|]. unfold graph_copy_self.
  match goal with |- result _ ?x = _ => enough (X : x = None) by (rewrite X; reflexivity) end. unfold live_depth_first_search. cbn -[live_loop].
  cbn [live_loop]. unfold live_edges. cbn -[live_loop]. apply chase. constructor; try reflexivity.
  - intros x [<-|[]]. apply le_n.
  - intros [|x] L; [inversion L|reflexivity].
Qed.
(** a graph without that edge meets the hypotheses: see [C140_example] *)
Print Assumptions C140_directed_into.
Print Assumptions C140_undirected_into.
Print Assumptions C140_directed.
Print Assumptions C140_undirected.
Print Assumptions C140_dangling.
