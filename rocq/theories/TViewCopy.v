(** Theorems C137: a search, a copy or an extraction of a GraphView is that of the graph with the selection as filter. *)
From Verif Require Import Graph GraphSpec Search SearchUsers View TCross TViewSearch Base BaseProofs.

(** ** Two searches that see the same edges *)
Section Same.
  Context {E St : Type}.
  Variables (out1 out2 : nat -> list E) (target : E -> nat) (push1 push2 : E -> bool) (vis1 vis2 : event E -> St -> res St) (ok : nat -> Prop).
  Hypothesis edges_same : forall u, ok u -> filter push1 (out1 u) = filter push2 (out2 u).
  Hypothesis stay : forall u e, ok u -> In e (filter push1 (out1 u)) -> ok (target e).
  Hypothesis ask1 : forall e st, vis1 (Ask e) st = Ok st.
  Hypothesis ask2 : forall e st, vis2 (Ask e) st = Ok st.
  Hypothesis on_vertices : forall v st, vis1 (Start v) st = vis2 (Start v) st /\ vis1 (Discover v) st = vis2 (Discover v) st /\
    vis1 (ExamineVertex v) st = vis2 (ExamineVertex v) st /\ vis1 (Finish v) st = vis2 (Finish v) st.
  Hypothesis on_edges : forall u e, ok u -> In e (filter push1 (out1 u)) -> forall st, vis1 (Examine e) st = vis2 (Examine e) st /\ vis1 (Tree e) st = vis2 (Tree e) st /\
    vis1 (Back e) st = vis2 (Back e) st /\ vis1 (ForwardOrCross e) st = vis2 (ForwardOrCross e) st /\ vis1 (NonTree e) st = vis2 (NonTree e) st /\
    vis1 (GrayTarget e) st = vis2 (GrayTarget e) st /\ vis1 (BlackTarget e) st = vis2 (BlackTarget e) st.

  Lemma calls_asks (out : nat -> list E) (vis : event E -> St -> res St) : (forall e st, vis (Ask e) st = Ok st) -> forall u st, calls vis (asks out u) st = Ok st.
  Proof. intros A u st. unfold asks. induction (out u) as [|e l IH]; [reflexivity|]. cbn [map calls]. rewrite A. exact IH. Qed.
  Lemma calls_split (vis : event E -> St -> res St) l1 : forall l2 st, calls vis (l1 ++ l2) st = rbind (calls vis l1 st) (calls vis l2).
  Proof. induction l1 as [|x l1 IH]; intros l2 st; [reflexivity|]. cbn [app calls]. destruct (vis x st) as [st'|x']; [apply IH|reflexivity]. Qed.
  Lemma calls_same l : (forall x st, In x l -> vis1 x st = vis2 x st) -> forall st, calls vis1 l st = calls vis2 l st.
  Proof.
    induction l as [|x l IH]; intros H st; [reflexivity|]. cbn [calls]. rewrite (H x st (or_introl eq_refl)). destruct (vis2 x st); [|reflexivity].
    apply IH. intros y st' I. apply H. right. exact I.
  Qed.

  Lemma dfs_loop_same fuel : forall cur stack c st,
    (forall u i n, cur = Some (u, i, n) -> ok u) -> (forall u i n, In (u, i, n) stack -> ok u) ->
    dfs_loop out1 target push1 vis1 fuel cur stack c st = dfs_loop out2 target push2 vis2 fuel cur stack c st.
  Proof.
    induction fuel as [|fuel IH]; intros cur stack c st HC HS; [reflexivity|]. cbn [dfs_loop]. destruct cur as [[[u i] n]|].
    - assert (Ou : ok u) by (eapply HC; reflexivity). destruct (eqb i n).
      + rewrite (proj2 (proj2 (proj2 (on_vertices u st)))). destruct (vis2 (Finish u) st); [|reflexivity]. apply IH; [discriminate|exact HS].
      + unfold u_edges at 1. rewrite (edges_same u Ou). fold (u_edges out2 push2 u). destruct (nth_error (u_edges out2 push2 u) i) as [e|] eqn:NE; [|reflexivity].
        assert (Ie : In e (filter push1 (out1 u))) by (rewrite (edges_same u Ou); eapply nth_error_In; exact NE).
        pose proof (on_edges u e Ou Ie) as OE. pose proof (stay u e Ou Ie) as Ov. destruct (color_read c (target e)) as [[| |] c1].
        * rewrite !calls_split. rewrite (calls_same [Examine e; Tree e; Discover (target e)]).
          2:{ intros x st' [<-|[<-|[<-|[]]]]; [apply OE|apply OE|apply on_vertices]. }
          destruct (calls vis2 [Examine e; Tree e; Discover (target e)] st) as [st1|]; [|reflexivity]. cbn [rbind]. rewrite (calls_asks out1 vis1 ask1), (calls_asks out2 vis2 ask2).
          unfold u_edges. rewrite (edges_same (target e) Ov). apply IH.
          -- intros u' i' n' X. injection X as <- _ _. exact Ov.
          -- intros u' i' n' [X|X]; [injection X as <- _ _; exact Ou|eapply HS; exact X].
        * rewrite (calls_same [Examine e; Back e]); [|intros x st' [<-|[<-|[]]]; apply OE]. destruct (calls vis2 [Examine e; Back e] st); [|reflexivity].
          apply IH; [|exact HS]. intros u' i' n' X. injection X as <- _ _. exact Ou.
        * rewrite (calls_same [Examine e; ForwardOrCross e]); [|intros x st' [<-|[<-|[]]]; apply OE]. destruct (calls vis2 [Examine e; ForwardOrCross e] st); [|reflexivity].
          apply IH; [|exact HS]. intros u' i' n' X. injection X as <- _ _. exact Ou.
    - destruct stack as [|[[u i] n] stack]; [reflexivity|]. rewrite (calls_asks out1 vis1 ask1), (calls_asks out2 vis2 ask2). apply IH.
      + intros u' i' n' X. injection X as <- <- <-. eapply HS. left. reflexivity.
      + intros u' i' n' X. eapply HS. right. exact X.
  Qed.
  Lemma dfs_same fuel s c st : ok s -> depth_first_search out1 target push1 vis1 fuel s c st = depth_first_search out2 target push2 vis2 fuel s c st.
  Proof.
    intros Os. unfold depth_first_search. rewrite !calls_split, (calls_same [Start s; Discover s]); [|intros x st' [<-|[<-|[]]]; apply on_vertices].
    destruct (calls vis2 [Start s; Discover s] st) as [st1|]; [|reflexivity]. cbn [rbind]. rewrite (calls_asks out1 vis1 ask1), (calls_asks out2 vis2 ask2).
    unfold u_edges. rewrite (edges_same s Os). apply dfs_loop_same; [discriminate|]. intros u i n [X|[]]. injection X as <- _ _. exact Os.
  Qed.

  Lemma bfs_edges_filter (push : E -> bool) (vis : event E -> St -> res St) (A : forall e st, vis (Ask e) st = Ok st) l : forall q c st,
    bfs_edges target push vis l q c st = bfs_edges target all_edges vis (filter push l) q c st.
  Proof.
    induction l as [|e l IH]; intros q c st; [reflexivity|]. cbn [bfs_edges filter]. rewrite A. cbn [rbind]. destruct (push e); cbn [negb]; [|apply IH].
    cbn [bfs_edges]. rewrite A. cbn [rbind all_edges negb]. destruct (color_read c (target e)) as [[| |] c1].
    - destruct (calls vis [Examine e; Tree e; Discover (target e)] st); [apply IH|reflexivity].
    - destruct (calls vis [Examine e; NonTree e; GrayTarget e] st); [apply IH|reflexivity].
    - destruct (calls vis [Examine e; NonTree e; BlackTarget e] st); [apply IH|reflexivity].
  Qed.
  Lemma bfs_edges_same u l : ok u -> incl l (filter push1 (out1 u)) -> forall q c st, (forall v, In v q -> ok v) ->
    bfs_edges target all_edges vis1 l q c st = bfs_edges target all_edges vis2 l q c st /\
    forall q' c' st', bfs_edges target all_edges vis2 l q c st = Ok (q', c', st') -> forall v, In v q' -> ok v.
  Proof.
    intros Ou. induction l as [|e l IH]; intros I q c st HQ.
    - split; [reflexivity|]. intros q' c' st' X. injection X as <- _ _. exact HQ.
    - assert (Ie : In e (filter push1 (out1 u))) by (apply I; left; reflexivity). assert (I' : incl l (filter push1 (out1 u))) by (intros x X; apply I; right; exact X).
      pose proof (on_edges u e Ou Ie) as OE. pose proof (stay u e Ou Ie) as Ov. cbn [bfs_edges]. rewrite ask1, ask2. cbn [rbind all_edges negb]. destruct (color_read c (target e)) as [[| |] c1].
      + rewrite (calls_same [Examine e; Tree e; Discover (target e)]); [|intros x st' [<-|[<-|[<-|[]]]]; [apply OE|apply OE|apply on_vertices]].
        destruct (calls vis2 [Examine e; Tree e; Discover (target e)] st); cbn [rbind]; [|split; [reflexivity|discriminate]]. apply (IH I').
        intros v X. apply in_app_iff in X. destruct X as [X|[<-|[]]]; [apply HQ, X|exact Ov].
      + rewrite (calls_same [Examine e; NonTree e; GrayTarget e]); [|intros x st' [<-|[<-|[<-|[]]]]; apply OE].
        destruct (calls vis2 [Examine e; NonTree e; GrayTarget e] st); cbn [rbind]; [|split; [reflexivity|discriminate]]. apply (IH I' _ _ _ HQ).
      + rewrite (calls_same [Examine e; NonTree e; BlackTarget e]); [|intros x st' [<-|[<-|[<-|[]]]]; apply OE].
        destruct (calls vis2 [Examine e; NonTree e; BlackTarget e] st); cbn [rbind]; [|split; [reflexivity|discriminate]]. apply (IH I' _ _ _ HQ).
  Qed.
  Lemma bfs_loop_same fuel : forall q c st, (forall v, In v q -> ok v) -> bfs_loop out1 target push1 vis1 fuel q c st = bfs_loop out2 target push2 vis2 fuel q c st.
  Proof.
    induction fuel as [|fuel IH]; intros [|u q] c st HQ; try reflexivity. cbn [bfs_loop]. assert (Ou : ok u) by (apply HQ; left; reflexivity).
    rewrite (proj1 (proj2 (proj2 (on_vertices u st)))). destruct (vis2 (ExamineVertex u) st) as [st0|]; cbn [rbind]; [|reflexivity].
    rewrite (bfs_edges_filter push1 vis1 ask1), (bfs_edges_filter push2 vis2 ask2), <- (edges_same u Ou).
    destruct (bfs_edges_same u (filter push1 (out1 u)) Ou (incl_refl _) q c st0) as [-> K]; [intros v X; apply HQ; right; exact X|].
    destruct (bfs_edges target all_edges vis2 (filter push1 (out1 u)) q c st0) as [[[q1 c1] st1]|]; [|reflexivity].
    rewrite (proj2 (proj2 (proj2 (on_vertices u st1)))). destruct (vis2 (Finish u) st1); [|reflexivity]. apply IH, (K q1 c1 st1 eq_refl).
  Qed.
  Lemma bfs_same fuel sources c st : (forall s, In s sources -> ok s) ->
    breadth_first_search_graph out1 target push1 vis1 fuel (Some sources) c st = breadth_first_search_graph out2 target push2 vis2 fuel (Some sources) c st.
  Proof.
    intros Os. unfold breadth_first_search_graph.
    assert (X : forall l q c st, (forall s, In s l -> ok s) -> (forall v, In v q -> ok v) -> bfs_sources vis1 l q c st = bfs_sources vis2 l q c st /\
      forall q' c' st', bfs_sources vis2 l q c st = Ok (q', c', st') -> forall v, In v q' -> ok v).
    { clear -on_vertices. induction l as [|s l IH]; intros q c st HL HQ; cbn [bfs_sources].
      - split; [reflexivity|]. intros q' c' st' X. injection X as <- _ _. exact HQ.
      - rewrite (proj1 (proj2 (on_vertices s st))). destruct (vis2 (Discover s) st); cbn [rbind]; [|split; [reflexivity|discriminate]].
        apply IH; [intros x X; apply HL; right; exact X|]. intros v [<-|X]; [apply HL; left; reflexivity|apply HQ, X]. }
    destruct (X sources [] c st Os) as [-> K]; [intros v []|]. destruct (bfs_sources vis2 sources [] c st) as [[[q c1] st1]|]; [|reflexivity].
    apply bfs_loop_same, (K q c1 st1 eq_refl).
  Qed.
End Same.

Section T.
  Context {E : Type} {EE : EqDec E}.
  Variable w : @view E.
  Hypothesis PG : plain_graph (vg w).
  Notation g := (vg w).
  Notation h := (view_api w).
  (** the edge is selected and leads to a selected vertex, as if_push and the property maps of graph_copy can tell *)
  Definition passes (e : E) : bool := erel w e && vrel w (api_target g e).

  Lemma view_filter (push : E -> bool) u : vrel w u = true -> filter push (api_out_edges h u) = filter (fun e => passes e && push e) (api_out_edges g u).
  Proof.
    intros Vu. cbn [view_api api_out_edges]. unfold view_out_edges. rewrite filter_filter. apply filter_ext_in. intros e I.
    destruct (proj2 PG u e I) as (S & _). unfold view_keeps, passes. rewrite S, Vu, andb_true_r. reflexivity.
  Qed.
  Lemma view_stay (push : E -> bool) u e : vrel w u = true -> In e (filter push (api_out_edges h u)) -> vrel w (api_target g e) = true /\ passes e = true.
  Proof.
    intros Vu I. rewrite (view_filter push u Vu) in I. apply filter_In in I. destruct I as [_ P]. apply andb_true_iff in P. destruct P as [P _]. split; [|exact P].
    apply andb_true_iff in P. apply P.
  Qed.

  (** C137: searching the view is searching the graph with the selection added to if_push, for any visitor. *)
  Theorem C137_depth_first_filter {St} (push : E -> bool) (vis : event E -> St -> res St) fuel s c st : (forall e st, vis (Ask e) st = Ok st) -> vrel w s = true ->
    depth_first_search (api_out_edges h) (api_target h) push vis fuel s c st =
    depth_first_search (api_out_edges g) (api_target g) (fun e => passes e && push e) vis fuel s c st.
  Proof.
    intros A Vs. apply dfs_same with (ok := fun u => vrel w u = true); auto.
    - intros u Vu. apply view_filter, Vu.
    - intros u e Vu I. eapply view_stay; eassumption.
    - intros u e _ _ st'. repeat split.
  Qed.
  Theorem C137_breadth_first_filter {St} (push : E -> bool) (vis : event E -> St -> res St) fuel sources c st : (forall e st, vis (Ask e) st = Ok st) ->
    (forall s, In s sources -> vrel w s = true) ->
    breadth_first_search_graph (api_out_edges h) (api_target h) push vis fuel (Some sources) c st =
    breadth_first_search_graph (api_out_edges g) (api_target g) (fun e => passes e && push e) vis fuel (Some sources) c st.
  Proof.
    intros A Vs. apply bfs_same with (ok := fun u => vrel w u = true); auto.
    - intros u Vu. apply view_filter, Vu.
    - intros u e Vu I. eapply view_stay; eassumption.
    - intros u e _ _ st'. repeat split.
  Qed.

  (** C137: copying or extracting the view is copying or extracting the graph with the selection as property maps. *)
  Theorem C137_graph_copy {G} (add_vertex : G -> G * res nat) (add_edge : G -> nat -> nat -> G * res (gedge * bool)) vrelevant erelevant fuel s g_dup : vrel w s = true ->
    graph_copy (api_out_edges h) (api_source h) (api_target h) vrelevant erelevant add_vertex add_edge fuel s g_dup =
    graph_copy (api_out_edges g) (api_source g) (api_target g) (fun v => vrel w v && vrelevant v) (fun e => erel w e && erelevant e) add_vertex add_edge fuel s g_dup.
  Proof.
    intros Vs. unfold graph_copy. f_equal. apply dfs_same with (ok := fun u => vrel w u = true); auto.
    - intros u Vu. rewrite (view_filter _ u Vu). apply filter_ext. intros e. unfold passes. cbn [view_api api_target]. destruct (erel w e), (vrel w (api_target g e)), (erelevant e), (vrelevant (api_target g e)); reflexivity.
    - intros u e Vu I. eapply view_stay; eassumption.
    - intros u e Vu I st. apply view_stay in I; [|exact Vu]. destruct I as [_ P]. apply andb_true_iff in P. destruct P as [P1 P2]. cbn [copy_visitor]. cbn [view_api api_target]. rewrite P1, P2. repeat split.
  Qed.
  Theorem C137_graph_extract vrelevant erelevant fuel s : vrel w s = true ->
    graph_extract (api_out_edges h) (api_target h) vrelevant erelevant fuel s =
    graph_extract (api_out_edges g) (api_target g) (fun v => vrel w v && vrelevant v) (fun e => erel w e && erelevant e) fuel s.
  Proof.
    intros Vs. unfold graph_extract. f_equal. apply dfs_same with (ok := fun u => vrel w u = true); auto.
    - intros u Vu. rewrite (view_filter _ u Vu). apply filter_ext. intros e. unfold passes. cbn [view_api api_target]. destruct (erel w e), (vrel w (api_target g e)), (erelevant e), (vrelevant (api_target g e)); reflexivity.
    - intros u e Vu I. eapply view_stay; eassumption.
    - intros u e Vu I st. apply view_stay in I; [|exact Vu]. destruct I as [_ P]. apply andb_true_iff in P. destruct P as [P1 P2]. cbn [extract_visitor]. cbn [view_api api_target]. rewrite P1, P2. repeat split.
  Qed.
End T.
Print Assumptions C137_depth_first_filter.
Print Assumptions C137_breadth_first_filter.
Print Assumptions C137_graph_copy.
Print Assumptions C137_graph_extract.

(** The view of C137_example: its copy has four vertices and four edges, and is that of the graph with the two filters. *)
Example C137_copy_example : plain_graph (vg ex_view) /\ vrel ex_view 0 = true /\
  (let copy := graph_copy (api_out_edges (view_api ex_view)) (api_source (view_api ex_view)) (api_target (view_api ex_view)) (fun _ => true) (fun _ => true) G_add_vertex G_add_edge 60 0 (G_init 0) in
   match copy with Some (Ok st) => G_vertices (cp_dup st) = [0; 1; 2; 3] /\ length (G_edges (cp_dup st)) = 4 /\ map fst (cp_vertices st) = [0; 1; 2; 3] | _ => False end) /\
  graph_extract (api_out_edges (view_api ex_view)) (api_target (view_api ex_view)) (fun _ => true) (fun _ => true) 60 0 <>
  graph_extract (api_out_edges (vg ex_view)) (api_target (vg ex_view)) (fun _ => true) (fun _ => true) 60 0.
Proof. split; [exact (proj1 C137_example)|]. split; [reflexivity|]. split; [vm_compute; auto|vm_compute; discriminate]. Qed.
