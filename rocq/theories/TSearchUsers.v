(** Theorems C35, C39, C40, C41 on topological_sort, cut, graph_copy and graph_extract. *)
From Verif Require Import Base BaseProofs Graph GraphSpec GraphProofs Search SearchSpec SearchProofs SearchProofs2 SearchUsers SearchUsersSpec SearchUsersProofs CopyProofs GraphProofs2 GraphProofs3 CopyProofs2 TSearch.

Section T.
  Context {E : Type} {EE : EqDec E}.
  Variables (out_edges : nat -> list E) (source target : E -> nat).
  Hypothesis FIN : finite_graph out_edges target.
  Hypothesis SRC : forall u e, In e (out_edges u) -> source e = u.
  Notation arc := (arc out_edges target).
  Notation reached := (reached out_edges target).

  Lemma graph_run vertices : exists t c', sruns out_edges target all_edges vertices [] t c'.
  Proof. destruct (closed_exists out_edges target all_edges FIN vertices) as (V & CV & I). apply (sruns_exists out_edges target all_edges V CV vertices I). Qed.
  Lemma empty_settled : settled out_edges target all_edges [].
  Proof. apply white_settled. reflexivity. Qed.
  Lemma graph_reached vertices t c' : sruns out_edges target all_edges vertices [] t c' -> forall v, In v (discovered t) <-> reached vertices v.
  Proof.
    intros R v. destruct (sruns_settled out_edges target source all_edges SRC vertices [] t c' R empty_settled) as ([_ S] & B & D & _).
    pose proof (sruns_facts _ _ _ _ _ _ _ R) as F. split.
    - intros I. destruct (D v I) as (s & Is & St). exists s. split; [exact Is|]. revert St. apply steps_sub. intros x y. apply next_all.
    - intros (s & Is & St). assert (Y : color_of c' v = BLACK).
      { specialize (B s Is). clear Is. induction St as [s|s y z N _ IH]; [exact B|]. apply IH, (S s y B). apply next_all, N. }
      destruct (in_dec' v (discovered t)) as [I|I]; [exact I|]. rewrite (f_other _ _ _ F v I) in Y. discriminate.
  Qed.
  Lemma topo_run vertices t c' : sruns out_edges target all_edges vertices [] t c' -> exists bound, forall fuel stack, bound <= fuel ->
    topological_sort out_edges target vertices fuel stack = Some (match back_edges t with [] => Ok (rev (finished t) ++ stack) | _ => Raise RuntimeError end).
  Proof.
    intros R. destruct (dfs_sources_run out_edges target all_edges topo_visitor vertices [] t c' R) as (k & H). exists k. intros fuel stack L.
    unfold topological_sort, depth_first_search_graph. rewrite H by exact L. unfold after. rewrite topo_calls. destruct (back_edges t); reflexivity.
  Qed.
  Lemma topo_back vertices t c' : sruns out_edges target all_edges vertices [] t c' -> (back_edges t <> [] <-> exists v, reached vertices v /\ plus arc v v).
  Proof.
    intros R. pose proof (graph_reached vertices t c' R) as D. pose proof (sruns_facts _ _ _ _ _ _ _ R) as F.
    destruct (sruns_settled out_edges target source all_edges SRC vertices [] t c' R empty_settled) as (S & B & _ & EX & K & O). split.
    - destruct (back_edges t) as [|e l] eqn:BE; [intros X; destruct (X eq_refl)|]. intros _. destruct (K e (or_introl eq_refl)) as (I1 & I2 & I3).
      assert (AX : forall e, In e (examined t) -> arc (source e) (target e)).
      { intros e' I. apply (Permutation_in _ EX) in I. apply in_flat_map in I. destruct I as (u & _ & I). apply filter_In in I. exists e'. rewrite (SRC u e' (proj1 I)).
        split; [apply I|reflexivity]. }
      exists (target e). split; [apply D, I2|]. apply (steps_back _ _ (source e)).
      + revert I3. apply steps_sub. intros x y (e' & I & <- & <-). apply AX. apply (Permutation_in _ (Permutation_sym (f_class _ _ _ F))), in_or_app. left. exact I.
      + apply AX. apply (Permutation_in _ (Permutation_sym (f_class _ _ _ F))), in_or_app. right. apply in_or_app. left. rewrite BE. left. reflexivity.
    - intros (v & Rv & C) BE. specialize (O BE).
      apply (ordered_acyclic out_edges target all_edges (finished t) (fun _ => False)) with (x := v); try tauto.
      + eapply Permutation_NoDup; [apply Permutation_sym, (f_fin _ _ _ F)|apply (f_nodup _ _ _ F)].
      + apply (ordered_ext out_edges target all_edges (finished t) (fun x => color_of [] x = BLACK)); [discriminate|exact O].
      + apply (Permutation_in _ (Permutation_sym (f_fin _ _ _ F))), D, Rv.
      + revert C. apply plus_iff. intros x y. apply next_all.
  Qed.

  (** C35: the vertices reached from the vertices of the graph are all the vertices, when the edges stay among them. *)
  Theorem C35_topological_sort vertices : acyclic_from out_edges target vertices -> exists l bound,
    (forall fuel stack, bound <= fuel -> topological_sort out_edges target vertices fuel stack = Some (Ok (l ++ stack))) /\
    NoDup l /\ (forall v, In v l <-> reached vertices v) /\ (forall u v, In u l -> arc u v -> before l u v).
  Proof.
    intros AC. destruct (graph_run vertices) as (t & c' & R). destruct (topo_run vertices t c' R) as (k & H).
    assert (BE : back_edges t = []).
    { pose proof (topo_back vertices t c' R) as X. destruct (back_edges t); [reflexivity|]. destruct X as [X _]. destruct X as (v & Rv & C); [discriminate|]. destruct (AC v Rv C). }
    rewrite BE in H. pose proof (sruns_facts _ _ _ _ _ _ _ R) as F.
    destruct (sruns_settled out_edges target source all_edges SRC vertices [] t c' R empty_settled) as (_ & _ & _ & _ & _ & O). specialize (O BE).
    exists (rev (finished t)), k. split; [exact H|]. split; [|split].
    - apply NoDup_rev. eapply Permutation_NoDup; [apply Permutation_sym, (f_fin _ _ _ F)|apply (f_nodup _ _ _ F)].
    - intros v. rewrite <- in_rev, <- (graph_reached vertices t c' R). split; apply Permutation_in; [|apply Permutation_sym]; apply (f_fin _ _ _ F).
    - intros u v I A. apply in_rev in I. apply in_split in I. destruct I as (F1 & F2 & EQ).
      destruct (ordered_split out_edges target all_edges (finished t) _ O F1 u F2 v EQ (proj2 (next_all out_edges target u v) A)) as [X|X]; [discriminate X|].
      apply in_split in X. destruct X as (G1 & G2 & EQ'). rewrite EQ, EQ'. exists (rev F2), (rev G2), (rev G1).
      rewrite rev_app_distr. cbn [rev]. rewrite rev_app_distr. cbn [rev]. rewrite <- !app_assoc. reflexivity.
  Qed.
  Theorem C35_cycle vertices v : reached vertices v -> plus arc v v -> exists bound, forall fuel stack, bound <= fuel ->
    topological_sort out_edges target vertices fuel stack = Some (Raise RuntimeError).
  Proof.
    intros Rv C. destruct (graph_run vertices) as (t & c' & R). destruct (topo_run vertices t c' R) as (k & H). exists k. intros fuel stack L. rewrite H by exact L.
    pose proof (proj2 (topo_back vertices t c' R) (ex_intro _ v (conj Rv C))) as X. destruct (back_edges t); [destruct (X eq_refl)|reflexivity].
  Qed.

  (** C39 *)
  Section Cut.
    Variable in_cut : E -> bool.
    Notation free := (fun e => negb (in_cut e)).
    Notation next := (next out_edges target free).
    Lemma cut_result s : exists l bound, (forall fuel, bound <= fuel -> cut out_edges source target in_cut fuel s = Some (Ok l)) /\
      forall v, In v l <-> (exists u e, steps next s u /\ In e (out_edges u) /\ in_cut e = true /\ target e = v) \/ (steps next s v /\ sink out_edges v).
    Proof.
      destruct (dfs_white out_edges target free FIN s [] eq_refl) as (t & c' & R).
      destruct (dfs_run out_edges target free (cut_visitor source in_cut) s [] t c' R) as (k & H).
      eexists. exists k. split.
      - intros fuel L. unfold cut. rewrite H by exact L. unfold after. rewrite cut_calls. cbn [result]. reflexivity.
      - pose proof (vrun_discovered out_edges target free s [] _ t c' R (fun _ _ => eq_refl)) as D.
        pose proof (proj1 (run_leaves out_edges source target in_cut SRC) _ _ _ _ _ R []) as LF.
        assert (AE : forall e, In e (asked (asks out_edges s ++ asks out_edges s)) <-> In e (out_edges s)).
        { intros e. rewrite asked_app, asked_asks, in_app_iff. tauto. }
        pose proof (proj1 (run_asked out_edges target in_cut) _ _ _ _ _ R AE) as AS.
        change (lf source (Start s :: t) []) with (lf source t []). change (ce in_cut (Start s :: t) []) with (ce in_cut t []).
        assert (CE : forall e, In e (ce in_cut t []) <-> (exists u, steps next s u /\ In e (out_edges u)) /\ in_cut e = true).
        { intros e. rewrite (In_ce source in_cut), AS. split.
          - intros [[]|[(u & I & J) K]]. split; [|exact K]. exists u. split; [apply D, I|exact J].
          - intros [(u & I & J) K]. right. split; [|exact K]. exists u. split; [apply D, I|exact J]. }
        intros v. rewrite In_sunion, In_sdiff, !In_sof, !in_map_iff, LF, D. cbn [In].
        split.
        + intros [(e & <- & I)|[[[I J]|[_ []]] N]].
          * left. apply CE in I. destruct I as [(u & I & J) K]. exists u, e. auto.
          * right. split; [exact I|]. unfold sink. destruct (out_edges v) as [|e l] eqn:O; [reflexivity|]. exfalso. apply N. exists e.
            assert (IE : In e (out_edges v)) by (rewrite O; left; reflexivity). split; [apply SRC, IE|]. apply CE. split; [exists v; split; [exact I|exact IE]|].
            destruct (in_cut e) eqn:C; [reflexivity|]. exfalso. unfold u_edges in J. rewrite O in J. cbn in J. rewrite C in J. discriminate.
        + intros [(u & e & I & J & K & T)|[I J]].
          * left. exists e. split; [exact T|]. apply CE. split; [exists u; auto|exact K].
          * right. split; [left; split; [exact I|]|]. { unfold u_edges. rewrite J. reflexivity. }
            intros (e & T & C). apply CE in C. destruct C as [(u & _ & C) _]. rewrite (SRC u e C) in T. subst u. rewrite J in C. destruct C.
    Qed.
    Theorem C39_cut s : exists l bound, (forall fuel, bound <= fuel -> cut out_edges source target in_cut fuel s = Some (Ok l)) /\
      (forall v, In v l <-> (exists u e, steps next s u /\ In e (out_edges u) /\ in_cut e = true /\ target e = v) \/ (steps next s v /\ sink out_edges v)) /\
      forall p, path out_edges target s p -> sink out_edges (last p s) -> exists v, In v (s :: p) /\ In v l.
    Proof.
      destruct (cut_result s) as (l & k & H & C). exists l, k. split; [exact H|]. split; [exact C|].
      intros p. assert (G : forall p u, steps next s u -> path out_edges target u p -> sink out_edges (last p u) -> exists v, In v (u :: p) /\ In v l).
      { clear p. induction p as [|v p IH]; intros u S P K.
        - exists u. split; [left; reflexivity|]. apply C. right. split; [exact S|exact K].
        - destruct P as [(e & I & T) P]. destruct (in_cut e) eqn:CE.
          + exists v. split; [right; left; reflexivity|]. apply C. left. exists u, e. auto.
          + assert (S' : steps next s v). { eapply steps_trans; [exact S|]. apply steps_one. exists e. rewrite CE. auto. }
            assert (LE : last (v :: p) u = last p v). { destruct p as [|w p]; [reflexivity|]. clear. change (last (w :: p) u = last (w :: p) v). revert w. induction p as [|z p IH]; intros w; [reflexivity|exact (IH z)]. }
            rewrite LE in K. clear LE. destruct (IH v S' P K) as (w & W & L). exists w. split; [right; exact W|exact L]. }
      apply G. constructor.
    Qed.
  End Cut.

  (** C41 *)
  Section Extract.
    Variables (vrelevant : nat -> bool) (erelevant : E -> bool).
    Notation rel := (fun e => erelevant e && vrelevant (target e)).
    Notation next := (next out_edges target rel).
    Theorem C41_graph_extract s : exists l bound, (forall fuel, bound <= fuel -> graph_extract out_edges target vrelevant erelevant fuel s = Some (Ok l)) /\
      exists vs, NoDup vs /\ (forall v, In v vs <-> steps next s v) /\
        flat_map (fun x => match x with OnVertex u => [u] | OnEdge _ => [] end) l = vs /\
        Permutation (flat_map (fun x => match x with OnVertex _ => [] | OnEdge e => [e] end) l) (flat_map (fun u => filter rel (out_edges u)) vs).
    Proof.
      destruct (dfs_white out_edges target rel FIN s [] eq_refl) as (t & c' & R).
      destruct (dfs_run out_edges target rel (extract_visitor target vrelevant erelevant) s [] t c' R) as (k & H).
      destruct (proj1 (run_edges out_edges target rel) _ _ _ _ _ R) as (E1 & E2 & E3).
      destruct (extract_calls target vrelevant erelevant (Start s :: t) []) as (l & A & B & C).
      { apply Forall_forall. intros e I. apply (Permutation_in _ E1) in I. apply in_flat_map in I. destruct I as (u & _ & I). apply filter_In in I. apply I. }
      exists l, k. split.
      - intros fuel L. unfold graph_extract. rewrite H by exact L. unfold after. rewrite A. reflexivity.
      - exists (discovered t). split; [apply (f_nodup _ _ _ (proj1 (run_facts out_edges target rel) _ _ _ _ _ R))|]. split; [apply (vrun_discovered out_edges target rel s [] _ t c' R (fun _ _ => eq_refl))|].
        split; [exact B|]. unfold cb_edges in C. rewrite C. exact E1.
    Qed.
  End Extract.

  (** C40: [pv] and [pe] are one-to-one: no key appears twice, and the values are the vertices (the edges) of the copy,
      each once. *)
  Section Copy.
    Variables (vrelevant : nat -> bool) (erelevant : E -> bool).
    Notation rel := (fun e => erelevant e && vrelevant (target e)).
    Notation next := (next out_edges target rel).
    Theorem C40_graph_copy_into m ops0 s : (forall u, NoDup (out_edges u)) -> let g0 := fst (run DG_call (G_init m) ops0) in exists g_dup pv pe done bound,
      (forall fuel, bound <= fuel -> graph_copy out_edges source target vrelevant erelevant G_add_vertex G_add_edge fuel s g0 = Some (Ok (Copying g_dup pv pe done))) /\
      (NoDup (map fst pv) /\ (forall v, In v (map fst pv) <-> steps next s v)) /\
      (NoDup (G_vertices g_dup) /\ G_vertices g_dup = G_vertices g0 ++ map snd pv) /\
      (NoDup (map fst pe) /\ (forall e, In e (map fst pe) <-> exists u, steps next s u /\ In e (out_edges u) /\ erelevant e = true /\ vrelevant (target e) = true)) /\
      (NoDup (G_edges g_dup) /\ Permutation (G_edges g0 ++ map snd pe) (G_edges g_dup)) /\
      forall e e', In (e, e') pe -> In (source e, Graph.source e') pv /\ In (target e, Graph.target e') pv.
    Proof.
      intros ND g0. destruct (dfs_white out_edges target rel FIN s [] eq_refl) as (t & c' & R).
      destruct (dfs_run out_edges target rel (copy_visitor source target vrelevant erelevant G_add_vertex G_add_edge) s [] t c' R) as (k & H).
      destruct (proj1 (run_edges out_edges target rel) _ _ _ _ _ R) as (E1 & E2 & E3).
      pose proof (vrun_discovered out_edges target rel s [] _ t c' R (fun _ _ => eq_refl)) as D.
      pose proof (proj1 (run_facts out_edges target rel) _ _ _ _ _ R) as F.
      assert (XR : Forall (fun e => rel e = true) (examined t)).
      { apply Forall_forall. intros e I. apply (Permutation_in _ E1) in I. apply in_flat_map in I. destruct I as (u & _ & I). apply filter_In in I. apply I. }
      pose proof (proj1 (directed_run m ops0)) as R0. fold g0 in R0. set (a0 := fst (run d_step (a_init m) ops0)) in R0.
      assert (C0 : cinv source target (verts a0) (es a0) (Copying g0 [] ([] : dict E gedge) [])).
      { constructor; cbn [cp_dup cp_vertices cp_edges cp_done map]; [exists a0; rewrite !app_nil_r; split; [exact R0|split; reflexivity]|constructor|intros x; reflexivity|constructor|intros e e' []]. }
      destruct (dup_inv source target vrelevant (verts a0) (es a0) s _ C0 (fun x => x)) as (st1 & s' & D1 & C1 & PV1 & PE1). cbn [cp_vertices cp_edges app] in PV1, PE1.
      assert (NX : NoDup (examined t)).
      { eapply Permutation_NoDup; [apply Permutation_sym, E1|]. pose proof (f_nodup _ _ _ F) as N. revert N. generalize (discovered t) as l. induction l as [|u l IH]; cbn; intros N; [constructor|].
        inversion N as [|? ? N1 N2]; subst. apply NoDup_app_intro; [apply NoDup_filter, ND|apply IH, N2|]. intros e I J. apply filter_In in I. apply in_flat_map in J.
        destruct J as (u' & J1 & J2). apply filter_In in J2. destruct I as [I _], J2 as [J2 _]. rewrite <- (SRC _ _ I), (SRC _ _ J2) in N1. exact (N1 J1). }
      destruct (copy_edges_inv source target vrelevant erelevant (verts a0) (es a0) (examined t) st1 C1) as (st' & X1 & X2 & X3 & X4).
      { apply (proj1 (run_sourced out_edges source target vrelevant erelevant SRC) _ _ _ _ _ R). rewrite PV1. left. reflexivity. }
      { exact NX. }
      { rewrite PE1. intros e _ []. }
      destruct st' as [g_dup pv pe done]. cbn [cp_vertices cp_edges] in *. exists g_dup, pv, pe, done, k. split; [|split; [|split; [|split; [|split]]]].
      - intros fuel L. unfold graph_copy. rewrite H by exact L. unfold after. cbn [calls].
        change (copy_visitor source target vrelevant erelevant G_add_vertex G_add_edge (Start s) (Copying g0 [] [] [])) with
          (rbind (@dup_vertex E graph G_add_vertex s (Copying g0 [] [] [])) (fun '(st, _) => Ok st)). rewrite D1. cbn [rbind].
        rewrite copy_calls, X1; [reflexivity|apply (proj1 (run_no_start out_edges target vrelevant erelevant) _ _ _ _ _ R)|exact XR].
      - split; [apply (ci_pv _ _ _ _ _ X2)|]. intros v. change (map fst pv) with (dkeys pv). rewrite X3, PV1, <- D. cbn [In]. rewrite E2. split.
        + intros [[<-|[]]|I]; [left; reflexivity|]. rewrite <- E2. apply in_map_iff in I. destruct I as (e & <- & I). apply D.
          apply (Permutation_in _ E1) in I. apply in_flat_map in I. destruct I as (u & J & I). eapply steps_trans; [apply D, J|]. apply steps_one, In_u_edges, I.
        + intros [<-|I]; [left; left; reflexivity|]. right. apply in_map_iff in I. destruct I as (e & <- & I). apply in_map.
          apply (Permutation_in _ (Permutation_sym (f_class _ _ _ F))), in_or_app. left. exact I.
      - destruct (ci_a _ _ _ _ _ X2) as (a & (DR & _) & V & _). cbn [cp_dup cp_vertices] in *. unfold G_vertices. rewrite (dr_keys _ _ _ DR), (dr_keys _ _ _ (proj1 R0)). split; [rewrite <- (dr_keys _ _ _ DR); apply (wf_keys _ (dr_wf _ _ _ DR))|symmetry; exact V].
      - split; [apply (ci_pe _ _ _ _ _ X2)|]. intros e. change (map fst pe) with (dkeys pe). rewrite X4, PE1. cbn [dkeys map app].
        assert (Q : In e (examined t) <-> exists u, In u (discovered t) /\ In e (u_edges out_edges rel u)).
        { rewrite <- in_flat_map. split; apply Permutation_in; [exact E1|apply Permutation_sym, E1]. }
        change (In e (examined t) <-> exists u, steps next s u /\ In e (out_edges u) /\ erelevant e = true /\ vrelevant (target e) = true). rewrite Q. split.
        + intros (u & I & J). apply filter_In in J. destruct J as [J1 J2]. apply andb_true_iff in J2. exists u. split; [apply D, I|]. tauto.
        + intros (u & I & J1 & J2). exists u. split; [apply D, I|]. apply filter_In. split; [exact J1|]. apply andb_true_iff. exact J2.
      - destruct (ci_a _ _ _ _ _ X2) as (a & (DR & _) & _ & V). cbn [cp_dup cp_edges] in *. split; [apply NoDup_edges, (dr_wf _ _ _ DR)|]. rewrite (drep_edges _ _ _ (proj1 R0)), V. apply Permutation_sym, (drep_edges _ _ _ DR).
      - intros e e' I. destruct (ci_ends _ _ _ _ _ X2 e e' I) as [A B]. split; apply dget_In; assumption.
    Qed.
    Theorem C40_graph_copy s : (forall u, NoDup (out_edges u)) -> exists g_dup pv pe done bound,
      (forall fuel, bound <= fuel -> graph_copy out_edges source target vrelevant erelevant G_add_vertex G_add_edge fuel s (G_init 0) = Some (Ok (Copying g_dup pv pe done))) /\
      (NoDup (map fst pv) /\ (forall v, In v (map fst pv) <-> steps next s v)) /\
      (NoDup (G_vertices g_dup) /\ Permutation (map snd pv) (G_vertices g_dup)) /\
      (NoDup (map fst pe) /\ (forall e, In e (map fst pe) <-> exists u, steps next s u /\ In e (out_edges u) /\ erelevant e = true /\ vrelevant (target e) = true)) /\
      (NoDup (G_edges g_dup) /\ Permutation (map snd pe) (G_edges g_dup)) /\
      forall e e', In (e, e') pe -> In (source e, Graph.source e') pv /\ In (target e, Graph.target e') pv.
    Proof.
      intros ND. destruct (C40_graph_copy_into 0 [] s ND) as (g_dup & pv & pe & done & k & H1 & H2 & (H3 & H4) & H5 & H6 & H7). exists g_dup, pv, pe, done, k.
      split; [exact H1|]. split; [exact H2|]. split; [split; [exact H3|rewrite H4; apply Permutation_refl]|]. split; [exact H5|]. split; [exact H6|exact H7].
    Qed.
    (** The same into an UndirectedGraph: one undirected edge of the copy for each relevant out-edge. *)
    Theorem C40_graph_copy_undirected_into m ops0 s : closed_prog u_step (a_init m) ops0 -> (forall u, NoDup (out_edges u)) -> let g0 := fst (run UG_call (G_init m) ops0) in exists g_dup pv pe done bound,
      (forall fuel, bound <= fuel -> graph_copy out_edges source target vrelevant erelevant G_add_vertex UG_add_edge fuel s g0 = Some (Ok (Copying g_dup pv pe done))) /\
      (NoDup (map fst pv) /\ (forall v, In v (map fst pv) <-> steps next s v)) /\
      (NoDup (G_vertices g_dup) /\ G_vertices g_dup = G_vertices g0 ++ map snd pv) /\
      (NoDup (map fst pe) /\ (forall e, In e (map fst pe) <-> exists u, steps next s u /\ In e (out_edges u) /\ erelevant e = true /\ vrelevant (target e) = true)) /\
      (NoDup (UG_edges g_dup) /\ Permutation (UG_edges g0 ++ map snd pe) (UG_edges g_dup)) /\
      forall e e', In (e, e') pe -> exists u' v', In (source e, u') pv /\ In (target e, v') pv /\ Graph.source e' = Nat.min u' v' /\ Graph.target e' = Nat.max u' v'.
    Proof.
      intros CP ND g0. destruct (dfs_white out_edges target rel FIN s [] eq_refl) as (t & c' & R).
      destruct (dfs_run out_edges target rel (copy_visitor source target vrelevant erelevant G_add_vertex UG_add_edge) s [] t c' R) as (k & H).
      destruct (proj1 (run_edges out_edges target rel) _ _ _ _ _ R) as (E1 & E2 & E3).
      pose proof (vrun_discovered out_edges target rel s [] _ t c' R (fun _ _ => eq_refl)) as D.
      pose proof (proj1 (run_facts out_edges target rel) _ _ _ _ _ R) as F.
      assert (XR : Forall (fun e => rel e = true) (examined t)).
      { apply Forall_forall. intros e I. apply (Permutation_in _ E1) in I. apply in_flat_map in I. destruct I as (u & _ & I). apply filter_In in I. apply I. }
      pose proof (proj1 (undirected_run m ops0 CP)) as R0. fold g0 in R0. set (a0 := fst (run u_step (a_init m) ops0)) in R0.
      assert (C0 : ucinv source target (verts a0) (es a0) (Copying g0 [] ([] : dict E gedge) [])).
      { constructor; cbn [cp_dup cp_vertices cp_edges cp_done map]; [exists a0; rewrite !app_nil_r; split; [exact R0|split; reflexivity]|constructor|intros x; reflexivity|constructor|intros e e' []]. }
      destruct (udup_inv source target vrelevant (verts a0) (es a0) s _ C0 (fun x => x)) as (st1 & s' & D1 & C1 & PV1 & PE1). cbn [cp_vertices cp_edges app] in PV1, PE1.
      assert (NX : NoDup (examined t)).
      { eapply Permutation_NoDup; [apply Permutation_sym, E1|]. pose proof (f_nodup _ _ _ F) as N. revert N. generalize (discovered t) as l. induction l as [|u l IH]; cbn; intros N; [constructor|].
        inversion N as [|? ? N1 N2]; subst. apply NoDup_app_intro; [apply NoDup_filter, ND|apply IH, N2|]. intros e I J. apply filter_In in I. apply in_flat_map in J.
        destruct J as (u' & J1 & J2). apply filter_In in J2. destruct I as [I _], J2 as [J2 _]. rewrite <- (SRC _ _ I), (SRC _ _ J2) in N1. exact (N1 J1). }
      destruct (ucopy_edges_inv source target vrelevant erelevant (verts a0) (es a0) (examined t) st1 C1) as (st' & X1 & X2 & X3 & X4).
      { apply (proj1 (run_sourced out_edges source target vrelevant erelevant SRC) _ _ _ _ _ R). rewrite PV1. left. reflexivity. }
      { exact NX. }
      { rewrite PE1. intros e _ []. }
      destruct st' as [g_dup pv pe done]. cbn [cp_vertices cp_edges] in *. exists g_dup, pv, pe, done, k. split; [|split; [|split; [|split; [|split]]]].
      - intros fuel L. unfold graph_copy. rewrite H by exact L. unfold after. cbn [calls].
        change (copy_visitor source target vrelevant erelevant G_add_vertex UG_add_edge (Start s) (Copying g0 [] [] [])) with
          (rbind (@dup_vertex E graph G_add_vertex s (Copying g0 [] [] [])) (fun '(st, _) => Ok st)). rewrite D1. cbn [rbind].
        rewrite ucopy_calls, X1; [reflexivity|apply (proj1 (run_no_start out_edges target vrelevant erelevant) _ _ _ _ _ R)|exact XR].
      - split; [apply (uci_pv _ _ _ _ _ X2)|]. intros v. change (map fst pv) with (dkeys pv). rewrite X3, PV1, <- D. cbn [In]. rewrite E2. split.
        + intros [[<-|[]]|I]; [left; reflexivity|]. rewrite <- E2. apply in_map_iff in I. destruct I as (e & <- & I). apply D.
          apply (Permutation_in _ E1) in I. apply in_flat_map in I. destruct I as (u & J & I). eapply steps_trans; [apply D, J|]. apply steps_one, In_u_edges, I.
        + intros [<-|I]; [left; left; reflexivity|]. right. apply in_map_iff in I. destruct I as (e & <- & I). apply in_map.
          apply (Permutation_in _ (Permutation_sym (f_class _ _ _ F))), in_or_app. left. exact I.
      - destruct (uci_a _ _ _ _ _ X2) as (a & (DR & _) & V & _). cbn [cp_dup cp_vertices] in *. unfold G_vertices. rewrite (ur_keys _ _ _ DR), (ur_keys _ _ _ (proj1 R0)). split; [rewrite <- (ur_keys _ _ _ DR); apply (wf_keys _ (ur_wf _ _ _ DR))|symmetry; exact V].
      - split; [apply (uci_pe _ _ _ _ _ X2)|]. intros e. change (map fst pe) with (dkeys pe). rewrite X4, PE1. cbn [dkeys map app].
        assert (Q : In e (examined t) <-> exists u, In u (discovered t) /\ In e (u_edges out_edges rel u)).
        { rewrite <- in_flat_map. split; apply Permutation_in; [exact E1|apply Permutation_sym, E1]. }
        change (In e (examined t) <-> exists u, steps next s u /\ In e (out_edges u) /\ erelevant e = true /\ vrelevant (target e) = true). rewrite Q. split.
        + intros (u & I & J). apply filter_In in J. destruct J as [J1 J2]. apply andb_true_iff in J2. exists u. split; [apply D, I|]. tauto.
        + intros (u & I & J1 & J2). exists u. split; [apply D, I|]. apply filter_In. split; [exact J1|]. apply andb_true_iff. exact J2.
      - destruct (uci_a _ _ _ _ _ X2) as (a & (DR & _) & _ & V). cbn [cp_dup cp_edges] in *. pose proof (urep_edges _ _ _ DR) as PE. split; [apply (Permutation_NoDup (Permutation_sym PE)), (ur_nd _ _ _ DR)|]. rewrite (urep_edges _ _ _ (proj1 R0)), V. apply Permutation_sym, PE.
      - intros e e' I. destruct (uci_ends _ _ _ _ _ X2 e e' I) as (x & y & A & B & L). exists x, y. split; [apply dget_In, A|]. split; [apply dget_In, B|exact L].
    Qed.
    Theorem C40_graph_copy_undirected s : (forall u, NoDup (out_edges u)) -> exists g_dup pv pe done bound,
      (forall fuel, bound <= fuel -> graph_copy out_edges source target vrelevant erelevant G_add_vertex UG_add_edge fuel s (G_init 0) = Some (Ok (Copying g_dup pv pe done))) /\
      (NoDup (map fst pv) /\ (forall v, In v (map fst pv) <-> steps next s v)) /\
      (NoDup (G_vertices g_dup) /\ Permutation (map snd pv) (G_vertices g_dup)) /\
      (NoDup (map fst pe) /\ (forall e, In e (map fst pe) <-> exists u, steps next s u /\ In e (out_edges u) /\ erelevant e = true /\ vrelevant (target e) = true)) /\
      (NoDup (UG_edges g_dup) /\ Permutation (map snd pe) (UG_edges g_dup)) /\
      forall e e', In (e, e') pe -> exists u' v', In (source e, u') pv /\ In (target e, v') pv /\ Graph.source e' = Nat.min u' v' /\ Graph.target e' = Nat.max u' v'.
    Proof.
      intros ND. destruct (C40_graph_copy_undirected_into 0 [] s I ND) as (g_dup & pv & pe & done & k & H1 & H2 & (H3 & H4) & H5 & H6 & H7). exists g_dup, pv, pe, done, k.
      split; [exact H1|]. split; [exact H2|]. split; [split; [exact H3|rewrite H4; apply Permutation_refl]|]. split; [exact H5|]. split; [exact H6|exact H7].
    Qed.
  End Copy.
End T.

(** ** The graphs of the library *)
Lemma DG_wf n ops : wf_adj (adjacencies (fst (run DG_call (G_init n) ops))).
Proof.
  pose proof (run_refine DG_call d_step drep_full d_step_ok ops (G_init n) (a_init n) (G_init_rep n)) as H.
  destruct (run DG_call (G_init n) ops) as [g o], (run d_step (a_init n) ops) as [a o']. apply (dr_wf _ _ _ (proj1 (proj1 H))).
Qed.

(** C35 for a graph whose edges go to vertices of the graph. *)
Theorem C35_graph g : (forall u e, In e (G_out_edges g u) -> In (target e) (G_vertices g)) ->
  let out := G_out_edges g in
  ((forall v, ~ plus (arc out target) v v) -> exists l bound, (forall fuel, bound <= fuel -> topological_sort out target (G_vertices g) fuel [] = Some (Ok l)) /\
     NoDup l /\ (forall v, In v l <-> In v (G_vertices g)) /\ forall u e, In e (out u) -> before l u (target e)) /\
  ((exists v, plus (arc out target) v v) -> exists bound, forall fuel, bound <= fuel -> topological_sort out target (G_vertices g) fuel [] = Some (Raise RuntimeError)).
Proof.
  intros CL out. assert (KV : forall u e, In e (out u) -> In u (G_vertices g)).
  { intros u e. unfold out, G_out_edges. destruct (dget (adjacencies g) u) as [d|] eqn:D; [|intros []]. intros _. apply dget_In in D. apply in_map_iff. exists (u, d). auto. }
  split.
  - intros AC. destruct (C35_topological_sort out source target (G_finite g) (G_source g) (G_vertices g) (fun v _ => AC v)) as (l & k & H1 & H2 & H3 & H4).
    assert (R : forall v, In v l <-> In v (G_vertices g)).
    { intros v. rewrite H3. split; [|intros I; exists v; split; [exact I|constructor]]. intros (s & I & S). induction S as [s|s y z (e & A & <-) S IH]; [exact I|]. apply IH, (CL s e A). }
    exists l, k. split; [intros fuel L; rewrite H1 by exact L; rewrite app_nil_r; reflexivity|]. split; [exact H2|]. split; [exact R|].
    intros u e I. apply H4; [apply R, (KV u e I)|exists e; auto].
  - intros (v & C). destruct (C35_cycle out source target (G_finite g) (G_source g) (G_vertices g) v) as (k & H); [|exact C|exists k; intros; apply H; assumption].
    exists v. split; [|constructor]. destruct C as (w & (e & A & _) & _). apply (KV v e A).
Qed.
(** 0 -> 1 -> 3, 0 -> 2 -> 3, 4: the hypotheses hold, and the result is a topological order; with 3 -> 0 it raises *)
Definition ex_dag : list gop := [OpAddEdge 0 1; OpAddEdge 1 3; OpAddEdge 0 2; OpAddEdge 2 3].
Example C35_example :
  let g := fst (run DG_call (G_init 5) ex_dag) in
  let g' := fst (run DG_call (G_init 5) (ex_dag ++ [OpAddEdge 3 0])) in
  (forall u e, In e (G_out_edges g u) -> In (target e) (G_vertices g)) /\ (forall u e, In e (G_out_edges g u) -> u < target e) /\
  topological_sort (G_out_edges g) target (G_vertices g) 30 [] = Some (Ok [4; 0; 2; 1; 3]) /\
  topological_sort (G_out_edges g') target (G_vertices g') 30 [] = Some (Raise RuntimeError).
Proof.
  split; [|split; [|split; vm_compute; reflexivity]]; intros u e; (do 5 (destruct u as [|u]; [vm_compute; intuition (subst; cbn; auto 10 with arith)|]); cbn; intros []).
Qed.

(** C39: an instance; 0 -> 1 -> 3, 0 -> 2 -> 3 and 0 -> 2 is cutting: the cut is {2, 3}. *)
Example C39_example : let g := fst (run DG_call (G_init 5) ex_dag) in
  match cut (G_out_edges g) source target (fun e => eqb e (Edge 0 2 0)) 30 0 with
  | Some (Ok l) => (forall v, In v l <-> In v [2; 3]) | _ => False end.
Proof. vm_compute. tauto. Qed.

(** C40 for directed graphs: those obtained by calling the methods of DirectedGraph. *)
Theorem C40_directed_graph n ops s vrelevant erelevant :
  let g := fst (run DG_call (G_init n) ops) in
  let next := next (G_out_edges g) target (fun e => erelevant e && vrelevant (target e)) in
  exists g_dup pv pe done bound,
  (forall fuel, bound <= fuel -> graph_copy (G_out_edges g) source target vrelevant erelevant G_add_vertex G_add_edge fuel s (G_init 0) = Some (Ok (Copying g_dup pv pe done))) /\
  (NoDup (map fst pv) /\ (forall v, In v (map fst pv) <-> steps next s v)) /\
  (NoDup (G_vertices g_dup) /\ Permutation (map snd pv) (G_vertices g_dup)) /\
  (NoDup (map fst pe) /\ (forall e, In e (map fst pe) <-> steps next s (source e) /\ In e (G_edges g) /\ erelevant e = true /\ vrelevant (target e) = true)) /\
  (NoDup (G_edges g_dup) /\ Permutation (map snd pe) (G_edges g_dup)) /\
  forall e e', In (e, e') pe -> In (source e, source e') pv /\ In (target e, target e') pv.
Proof.
  intros g nx. pose proof (DG_wf n ops : wf_adj (adjacencies g)) as W.
  destruct (C40_graph_copy (G_out_edges g) source target (G_finite g) (G_source g) vrelevant erelevant s (fun u => NoDup_out_edges g u W)) as (g_dup & pv & pe & done & k & H1 & H2 & H3 & (H4 & H4') & H5 & H6).
  exists g_dup, pv, pe, done, k. split; [exact H1|]. split; [exact H2|]. split; [exact H3|]. split; [|split; [exact H5|exact H6]]. split; [exact H4|].
  intros e. rewrite H4'. split.
  - intros (u & I & J & K). pose proof (G_source g u e J) as S. rewrite S. split; [exact I|]. split; [|exact K]. apply In_edges; [exact W|]. apply In_out_edges in J; [|exact W]. rewrite S. apply J.
  - intros (I & J & K). exists (source e). split; [exact I|]. split; [|exact K]. apply In_out_edges; [exact W|]. split; [reflexivity|]. apply (In_edges g e W), J.
Qed.
(** the copy, from 0, of 0 -> 1 (twice), 1 -> 0, 1 -> 2, 3 -> 0 with 2 irrelevant *)
Example C40_example : let g := fst (run DG_call (G_init 4) [OpAddEdge 0 1; OpAddEdge 0 1; OpAddEdge 1 0; OpAddEdge 1 2; OpAddEdge 3 0]) in
  match graph_copy (G_out_edges g) source target (fun v => negb (eqb v 2)) (fun _ => true) G_add_vertex G_add_edge 40 0 (G_init 0) with
  | Some (Ok st) => (cp_vertices st, map snd (cp_edges st)) = ([(0, 0); (1, 1)], [Edge 0 1 0; Edge 1 0 0; Edge 0 1 1])
  | _ => False end.
Proof. vm_compute. reflexivity. Qed.
(** Undirected graphs: those obtained by calling the methods of UndirectedGraph (edges added between existing vertices). *)
Lemma UG_wf n ops : closed_prog u_step (a_init n) ops -> wf_adj (adjacencies (fst (run UG_call (G_init n) ops))).
Proof. intros CP. destruct (undirected_run n ops CP) as ((R & _) & _). apply (ur_wf _ _ _ R). Qed.
(** Each edge of [g] between u and v is copied once from u and once from v (if both are reached): the copy has two edges
    for one, except for the loops. *)
Theorem C40_undirected_graph n ops s vrelevant erelevant : closed_prog u_step (a_init n) ops ->
  let g := fst (run UG_call (G_init n) ops) in
  let next := next (G_out_edges g) target (fun e => erelevant e && vrelevant (target e)) in
  exists g_dup pv pe done bound,
  (forall fuel, bound <= fuel -> graph_copy (G_out_edges g) source target vrelevant erelevant G_add_vertex UG_add_edge fuel s (G_init 0) = Some (Ok (Copying g_dup pv pe done))) /\
  (NoDup (map fst pv) /\ (forall v, In v (map fst pv) <-> steps next s v)) /\
  (NoDup (G_vertices g_dup) /\ Permutation (map snd pv) (G_vertices g_dup)) /\
  (NoDup (map fst pe) /\ (forall u v k, In (Edge u v k) (map fst pe) <->
     steps next s u /\ In (Edge (Nat.min u v) (Nat.max u v) k) (UG_edges g) /\ erelevant (Edge u v k) = true /\ vrelevant v = true)) /\
  (NoDup (UG_edges g_dup) /\ Permutation (map snd pe) (UG_edges g_dup)) /\
  forall e e', In (e, e') pe -> exists u' v', In (source e, u') pv /\ In (target e, v') pv /\ source e' = Nat.min u' v' /\ target e' = Nat.max u' v'.
Proof.
  intros CP g nx. pose proof (UG_wf n ops CP : wf_adj (adjacencies g)) as W. destruct (undirected_symmetric n ops CP) as (_ & _ & _ & SY & _). fold g in SY.
  destruct (C40_graph_copy_undirected (G_out_edges g) source target (G_finite g) (G_source g) vrelevant erelevant s (fun u => NoDup_out_edges g u W)) as (g_dup & pv & pe & done & k & H1 & H2 & H3 & (H4 & H4') & H5 & H6).
  exists g_dup, pv, pe, done, k. split; [exact H1|]. split; [exact H2|]. split; [exact H3|]. split; [|split; [exact H5|exact H6]]. split; [exact H4|].
  intros u v x. rewrite H4', <- SY. split.
  - intros (u' & I & J & K). pose proof (G_source g u' _ J) as S. cbn in S. subst u'. auto.
  - intros (I & J & K). exists u. auto.
Qed.
(** 0 - 1, a loop on 1, 1 - 2 *)
Example C40_undirected_example : let ops := [OpAddEdge 1 0; OpAddEdge 1 1; OpAddEdge 1 2] in
  closed_prog u_step (a_init 3) ops /\
  let g := fst (run UG_call (G_init 3) ops) in
  match graph_copy (G_out_edges g) source target (fun _ => true) (fun _ => true) G_add_vertex UG_add_edge 40 0 (G_init 0) with
  | Some (Ok st) => (UG_edges g, UG_edges (cp_dup st)) = ([Edge 0 1 0; Edge 1 1 0; Edge 1 2 0], [Edge 0 1 0; Edge 0 1 1; Edge 1 1 0; Edge 1 2 0; Edge 1 2 1])
  | _ => False end.
Proof. split; [cbn; auto 10|]. vm_compute. reflexivity. Qed.
(** C40 for undirected graphs: false, each edge is examined from both ends, hence copied twice. *)
Theorem C40_undirected_refuted : exists n ops s,
  let g := fst (run UG_call (G_init n) ops) in
  match graph_copy (G_out_edges g) source target (fun _ => true) (fun _ => true) G_add_vertex UG_add_edge 40 s (G_init 0) with
  | Some (Ok st) => length (G_vertices (cp_dup st)) = length (G_vertices g) /\ length (UG_edges (cp_dup st)) = 2 * length (UG_edges g) /\ length (UG_edges g) = 1
  | _ => False
  end.
Proof. exists 2, [OpAddEdge 0 1], 0. vm_compute. auto. Qed.

(** C41: an instance, and the same remark on undirected graphs: two calls for one edge. *)
Example C41_example : let g := fst (run DG_call (G_init 4) [OpAddEdge 0 1; OpAddEdge 0 1; OpAddEdge 1 0; OpAddEdge 1 2; OpAddEdge 3 0]) in
  graph_extract (G_out_edges g) target (fun v => negb (eqb v 2)) (fun _ => true) 40 0 =
  Some (Ok [OnVertex 0; OnEdge (Edge 0 1 0); OnVertex 1; OnEdge (Edge 1 0 0); OnEdge (Edge 0 1 1)]).
Proof. vm_compute. reflexivity. Qed.
(** On an UndirectedGraph each edge is called back once from each end reached. *)
Theorem C41_undirected_graph n ops s vrelevant erelevant : closed_prog u_step (a_init n) ops ->
  let g := fst (run UG_call (G_init n) ops) in
  let next := next (G_out_edges g) target (fun e => erelevant e && vrelevant (target e)) in
  exists l bound, (forall fuel, bound <= fuel -> graph_extract (G_out_edges g) target vrelevant erelevant fuel s = Some (Ok l)) /\
  let vs := flat_map (fun x => match x with OnVertex u => [u] | OnEdge _ => [] end) l in
  let edges := flat_map (fun x => match x with OnVertex _ => [] | OnEdge e => [e] end) l in
  NoDup vs /\ (forall v, In v vs <-> steps next s v) /\ NoDup edges /\
  forall u v k, In (Edge u v k) edges <-> steps next s u /\ In (Edge (Nat.min u v) (Nat.max u v) k) (UG_edges g) /\ erelevant (Edge u v k) = true /\ vrelevant v = true.
Proof.
  intros CP g nx. pose proof (UG_wf n ops CP : wf_adj (adjacencies g)) as W. destruct (undirected_symmetric n ops CP) as (_ & _ & _ & SY & _). fold g in SY.
  destruct (C41_graph_extract (G_out_edges g) target (G_finite g) vrelevant erelevant s) as (l & k & H & vs & ND & HV & E1 & E2).
  exists l, k. split; [exact H|]. cbv zeta. rewrite E1. split; [exact ND|]. split; [exact HV|].
  set (F := fun u => filter (fun e => erelevant e && vrelevant (target e)) (G_out_edges g u)).
  fold F in E2. assert (I2 : forall e, In e (flat_map F vs) <-> steps nx s (source e) /\ In e (G_out_edges g (source e)) /\ erelevant e = true /\ vrelevant (target e) = true).
  { intros e. rewrite in_flat_map. unfold F. split.
    - intros (u & I & J). apply filter_In in J. destruct J as [J1 J2]. apply andb_true_iff in J2. pose proof (G_source g u e J1) as S. rewrite S. split; [apply HV, I|]. tauto.
    - intros (I & J & K). exists (source e). split; [apply HV, I|]. apply filter_In. split; [exact J|]. apply andb_true_iff. exact K. }
  split.
  - apply (Permutation_NoDup (Permutation_sym E2)). clear - ND W. induction vs as [|u vs IH]; cbn; [constructor|]. inversion ND as [|? ? N1 N2]; subst.
    apply NoDup_app_intro; [apply NoDup_filter, NoDup_out_edges, W|apply IH, N2|]. intros e I J. apply filter_In in I. apply in_flat_map in J. destruct J as (u' & J1 & J2). apply filter_In in J2.
    destruct I as [I _], J2 as [J2 _]. rewrite <- (G_source g _ _ I), (G_source g _ _ J2) in N1. exact (N1 J1).
  - intros u v x. rewrite <- SY. rewrite <- (I2 (Edge u v x)). split; apply Permutation_in; [exact E2|apply Permutation_sym, E2].
Qed.
Theorem C41_undirected_refuted : exists n ops s,
  let g := fst (run UG_call (G_init n) ops) in
  match graph_extract (G_out_edges g) target (fun _ => true) (fun _ => true) 40 s with
  | Some (Ok l) => length (UG_edges g) = 1 /\ length (flat_map (fun x => match x with OnVertex _ => [] | OnEdge e => [e] end) l) = 2
  | _ => False
  end.
Proof. exists 2, [OpAddEdge 0 1], 0. vm_compute. auto. Qed.

Print Assumptions C35_topological_sort.
Print Assumptions C35_cycle.
Print Assumptions C35_graph.
Print Assumptions C39_cut.
Print Assumptions C40_graph_copy_into.
Print Assumptions C40_graph_copy.
Print Assumptions C40_directed_graph.
Print Assumptions C40_graph_copy_undirected_into.
Print Assumptions C40_graph_copy_undirected.
Print Assumptions C40_undirected_graph.
Print Assumptions C40_undirected_refuted.
Print Assumptions C41_graph_extract.
Print Assumptions C41_undirected_graph.
Print Assumptions C41_undirected_refuted.
