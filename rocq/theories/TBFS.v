(** Theorems C37, C38 on breadth_first_search. *)
From Coq Require Import Sorted.
From Verif Require Import Base BaseProofs Graph Automaton Search SearchSpec SearchProofs SearchProofs2 TSearch BFSProofs.

Section T.
  Context {E : Type}.
  Variables (out_edges : nat -> list E) (target source : E -> nat) (if_push : E -> bool).
  Notation next := (next out_edges target if_push).
  Hypothesis FIN : finite_graph out_edges target.

  (** [distance sources v n]: the least number of accepted edges from a source to v is n *)
  Definition distance (sources : list nat) (v n : nat) : Prop :=
    (exists s, In s sources /\ walk next n s v) /\ (forall s m, In s sources -> walk next m s v -> n <= m).
  Definition bfs_calls (sources : list nat) (c : colors) (t : list (event E)) (c' : colors) : Prop :=
    performs (fun St vis fuel st => breadth_first_search_graph out_edges target if_push vis fuel (Some sources) c st) t c'.

  Lemma walk_steps n x y : walk next n x y -> steps next x y.
  Proof. induction 1; econstructor; eassumption. Qed.
  Lemma steps_walk x y : steps next x y -> exists n, walk next n x y.
  Proof. induction 1 as [x|x y z N H (n & W)]; [exists 0; constructor|]. exists (S n). econstructor; eassumption. Qed.

  Lemma bfs_sources_calls {St} (vis : event E -> St -> res St) l : forall q c st, bfs_sources vis l q c st =
    match calls vis (map Discover l) st with Ok st' => Ok (rev l ++ q, fold_left (fun c s => dset c s GRAY) l c, st') | Raise x => Raise x end.
  Proof.
    induction l as [|s l IH]; intros q c st; [reflexivity|]. cbn [bfs_sources map calls fold_left rev]. destruct (vis (Discover s) st) as [st1|x]; cbn [rbind]; [|reflexivity].
    rewrite IH. rewrite <- app_assoc. reflexivity.
  Qed.
  Lemma fold_gray l : forall c v, color_of (fold_left (fun c s => dset c s GRAY) l c) v = if mem v l then GRAY else color_of c v.
  Proof.
    induction l as [|s l IH]; intros c v; [reflexivity|]. cbn [fold_left]. rewrite IH. change (mem v (s :: l)) with (eqb v s || mem v l). unfold color_of at 1. rewrite dget_dset.
    destruct (eqb_spec v s), (mem v l); reflexivity.
  Qed.
  Lemma discover_map (l : list nat) : discovered (map (@Discover E) l) = l /\ finished (map (@Discover E) l) = [] /\ examined (map (@Discover E) l) = [] /\ tree_edges (map (@Discover E) l) = [].
  Proof. induction l as [|x l (I1 & I2 & I3 & I4)]; [auto|]. split; [exact (f_equal (cons x) I1)|]. split; [exact I2|]. split; [exact I3|exact I4]. Qed.

  (** C37 *)
  Theorem C37_breadth_first_search_graph sources c : NoDup sources ->
    (forall s v, In s sources -> steps next s v -> color_of c v = WHITE) -> exists t c', bfs_calls sources c t c' /\
    NoDup (discovered t) /\ (forall v, In v (discovered t) <-> exists s, In s sources /\ steps next s v) /\
    examined t = flat_map (fun u => filter if_push (out_edges u)) (finished t) /\
    (exists rest, discovered t = sources ++ rest /\ finished t = rev sources ++ rest /\ rest = map target (tree_edges t)) /\
    (exists dist, (forall v, In v (discovered t) -> distance sources v (dist v)) /\ StronglySorted le (map dist (discovered t)) /\
       ((forall u e, In e (out_edges u) -> source e = u) -> forall e, In e (tree_edges t) -> In (source e) (discovered t) /\ dist (target e) = S (dist (source e)))) /\
    (forall v, In v (discovered t) -> color_of c' v = BLACK) /\ (forall v, ~ In v (discovered t) -> color_of c' v = color_of c v).
  Proof.
    intros ND W. destruct (closed_exists out_edges target if_push FIN sources) as (V & CV & IV).
    set (c1 := fold_left (fun c s => dset c s GRAY) sources c).
    destruct (brun_exists out_edges target source if_push (nodup Nat.eq_dec V) (NoDup_nodup _ _)) with (q := rev sources) (c := c1) (n := length (rev sources) + whites (nodup Nat.eq_dec V) c1) as (t & c' & R).
    { intros u v I N. apply nodup_In in I. apply nodup_In. apply (CV u v I N). }
    { intros v I. apply nodup_In. apply IV. apply in_rev, I. }
    { apply le_n. }
    assert (J : binv out_edges target if_push sources c [] (rev sources) c1 (fun _ => 0)).
    { constructor; cbn [app].
      - apply NoDup_rev, ND.
      - intros v I. exists v. split; [apply in_rev, I|constructor].
      - intros v [].
      - intros v I. unfold c1. rewrite fold_gray. destruct (mem_reflect v sources) as [M|M]; [reflexivity|]. apply in_rev in I. contradiction.
      - intros v I. unfold c1. rewrite fold_gray. destruct (mem_reflect v sources) as [M|M]; [|reflexivity]. apply in_rev in M. contradiction.
      - intros s I. split; [apply in_rev in I; exact I|reflexivity].
      - intros u v [].
      - apply (sorted_const _ 0). intros x X. apply in_map_iff in X. destruct X as (y & <- & _). reflexivity.
      - intros. lia. }
    assert (WH : forall v n, from_source out_edges target if_push sources n v -> color_of c v = WHITE).
    { intros v n (s & I & X). apply (W s v I). eapply walk_steps, X. }
    destruct (brun_inv out_edges target source if_push sources c WH _ _ _ _ R [] _ J) as (dp & K & K0 & F & D & EX & SUB & TR). cbn [app] in *.
    destruct (discover_map sources) as (M1 & M2 & M3 & M4).
    destruct K as [I1 I2 I3 I4 I5 I6 I7 I8 I9]. rewrite app_nil_r in *.
    assert (DT : discovered (map Discover sources ++ t) = sources ++ discovered t) by (rewrite disc_app, M1; reflexivity).
    assert (FT : finished (map Discover sources ++ t) = rev sources ++ discovered t) by (unfold finished in *; rewrite flat_map_app, M2, F; reflexivity).
    assert (XT : examined (map Discover sources ++ t) = examined t) by (rewrite exam_app, M3; reflexivity).
    assert (TT : tree_edges (map Discover sources ++ t) = tree_edges t) by (unfold tree_edges in *; rewrite flat_map_app, M4; reflexivity).
    assert (SAME : forall v, In v (sources ++ discovered t) <-> In v (rev sources ++ discovered t)) by (intros v; rewrite !in_app_iff, <- in_rev; tauto).
    assert (REACH : forall m s v, In s sources -> walk next m s v -> In v (rev sources ++ discovered t) /\ dp v <= m).
    { assert (G : forall m x v, walk next m x v -> In x (rev sources ++ discovered t) -> In v (rev sources ++ discovered t) /\ dp v <= m + dp x).
      { clear -I7. induction 1 as [x|m x y v N X IH]; intros I; [split; [exact I|lia]|]. destruct (I7 x y I N) as [A B]. destruct (IH A) as [A' B']. split; [exact A'|lia]. }
      intros m s v I X. destruct (I6 s I) as [A B]. destruct (G m s v X A) as [A' B']. split; [exact A'|lia]. }
    exists (map Discover sources ++ t), c'. rewrite DT, FT, XT, TT. split; [|split; [|split; [|split; [|split; [|split; [|split]]]]]].
    - intros St vis. destruct (brun_calls out_edges target if_push vis _ _ _ _ R) as (k & H). exists k. intros st fuel L. unfold breadth_first_search_graph.
      rewrite bfs_sources_calls, app_nil_r, calls_app. destruct (calls vis (map Discover sources) st) as [st1|x]; cbn [rbind]; [|reflexivity]. apply H, L.
    - eapply Permutation_NoDup; [|exact I1]. apply Permutation_app_tail. symmetry. apply Permutation_rev.
    - intros v. rewrite SAME. split.
      + intros I. destruct (I2 v I) as (s & Is & X). exists s. split; [exact Is|]. eapply walk_steps, X.
      + intros (s & Is & S). apply steps_walk in S. destruct S as (n & S). apply (REACH n s v Is S).
    - exact EX.
    - exists (discovered t). auto.
    - exists dp. split; [|split].
      + intros v I. apply SAME in I. split; [apply I2, I|]. intros s m Is X. apply (REACH m s v Is X).
      + rewrite map_app. apply sorted_app.
        * apply (sorted_const _ 0). intros x X. apply in_map_iff in X. destruct X as (s & <- & Is). apply I6, Is.
        * rewrite map_app in I8. clear -I8. induction (map dp (rev sources)) as [|x l IH]; [exact I8|]. inversion I8; subst. apply IH. assumption.
        * intros x y X Y. apply in_map_iff in X. destruct X as (s & <- & Is). destruct (I6 s Is) as [_ ->]. lia.
      + intros SRC e I. split; [|apply (TR SRC e I)]. apply SUB in I. rewrite EX in I. apply in_flat_map in I. destruct I as (u & Iu & I). apply filter_In in I. rewrite (SRC u e (proj1 I)). apply SAME, Iu.
    - intros v I. apply I3, SAME, I.
    - intros v I. apply I5. intros X. apply I, SAME, X.
  Qed.

  (** The entry point breadth_first_search, called with a visitor: every vertex is initialised, whatever the color map
      held before. *)
  Theorem C37_breadth_first_search vertices s c : (forall v, steps next s v -> In v vertices) -> exists t c',
    performs (fun St vis fuel st => breadth_first_search out_edges target if_push vis fuel vertices s c st) (map Init vertices ++ t) c' /\
    (forall v, ~ In (Init v) t) /\
    NoDup (discovered t) /\ (forall v, In v (discovered t) <-> steps next s v) /\ finished t = discovered t /\
    examined t = flat_map (fun u => filter if_push (out_edges u)) (discovered t) /\
    (exists dist, (forall v, In v (discovered t) -> distance [s] v (dist v)) /\ StronglySorted le (map dist (discovered t))).
  Proof.
    intros IV. set (c1 := fold_left (fun c u => dset c u WHITE) vertices c).
    assert (C1 : forall l c v, color_of (fold_left (fun c u => dset c u WHITE) l c) v = if mem v l then WHITE else color_of c v).
    { induction l as [|u l IH]; intros c2 v; [reflexivity|]. cbn [fold_left]. rewrite IH. change (mem v (u :: l)) with (eqb v u || mem v l). unfold color_of at 1. rewrite dget_dset. destruct (eqb_spec v u), (mem v l); reflexivity. }
    destruct (C37_breadth_first_search_graph [s] c1) as (t & c' & P & H1 & H2 & H3 & (rest & H4 & H4' & _) & (dist & H5 & H6 & _) & _ & _).
    { constructor; [intros []|constructor]. }
    { intros x v [<-|[]] S. unfold c1. rewrite C1. destruct (mem_reflect v vertices) as [M|M]; [reflexivity|]. destruct M. apply IV, S. }
    exists t, c'. split; [|split; [|split; [exact H1|split; [|split; [|split]]]]].
    - intros St vis. destruct (P St vis) as (k & H). exists k. intros st fuel L. unfold breadth_first_search.
      assert (X : forall l c st, bfs_init vis l c st = match calls vis (map Init l) st with Ok st' => Ok (fold_left (fun c u => dset c u WHITE) l c, st') | Raise x => Raise x end).
      { induction l as [|u l IH]; intros c2 st2; [reflexivity|]. cbn [bfs_init map calls fold_left]. destruct (vis (Init u) st2) as [st3|x]; cbn [rbind]; [apply IH|reflexivity]. }
      rewrite X, calls_app. destruct (calls vis (map Init vertices) st) as [st1|x]; cbn [rbind]; [|reflexivity]. apply H, L.
    - intros v I. clear -P I. specialize (P (list nat) (fun x st => match x with Init v => Ok (v :: st) | _ => Ok st end)).
      set (vis := fun x st => match x with Init v => Ok (v :: st) | _ => Ok st end) in P.
      assert (X : forall fuel q c st c' st', bfs_loop out_edges target if_push vis fuel q c st = Some (Ok (c', st')) -> st' = st).
      { assert (Y : forall l q c st q' c' st', bfs_edges target if_push vis l q c st = Ok (q', c', st') -> st' = st).
        { induction l as [|e l IH]; intros q c2 st q' c3 st' B; cbn in B; [injection B as _ _ <-; reflexivity|]. destruct (if_push e); cbn in B; [|apply (IH _ _ _ _ _ _ B)].
          destruct (color_read c2 (target e)) as [[] c4]; cbn in B; apply (IH _ _ _ _ _ _ B). }
        induction fuel as [|fuel IH]; intros [|u q] c2 st c3 st' B; cbn [bfs_loop] in B; try (injection B as _ <-; reflexivity); [discriminate|].
        cbn [rbind vis] in B. destruct (bfs_edges target if_push vis (out_edges u) q c2 st) as [[[q1 c4] st1]|x] eqn:B1; [|discriminate]. apply Y in B1. subst st1. apply (IH _ _ _ _ _ B). }
      destruct P as (k & H). specialize (H [] k (le_n _)). cbn in H.
      assert (Z : forall t st, exists st', calls vis t st = Ok st' /\ (In (Init v) t -> In v st') /\ (In v st -> In v st')).
      { clear. induction t as [|x t IH]; intros st; [exists st; split; [reflexivity|split; [intros []|auto]]|]. cbn [calls].
        assert (Q : exists st1, vis x st = Ok st1 /\ (x = Init v -> In v st1) /\ (In v st -> In v st1)).
        { destruct x; cbn; eexists; (split; [reflexivity|split; [intros X; try discriminate X|]]); auto. injection X as ->. left. reflexivity. intros J. right. exact J. }
        destruct Q as (st1 & -> & Q1 & Q2). cbn [rbind]. destruct (IH st1) as (st' & Q3 & Q4 & Q5). exists st'. split; [exact Q3|]. split; [intros [J|J]; auto|auto]. }
      destruct (Z t []) as (st' & Z1 & Z2 & _). rewrite Z1 in H. apply X in H. subst st'. destruct (Z2 I).
    - intros v. rewrite H2. split; [intros (x & [<-|[]] & S); exact S|intros S; exists s; split; [left; reflexivity|exact S]].
    - rewrite H4, H4'. reflexivity.
    - rewrite H3, H4, H4'. reflexivity.
    - exists dist. auto.
  Qed.
End T.

(** C38 is false: breadth_first_search without visitor calls None.initialize_vertex at the first vertex. *)
Theorem C38_default_visitor_refuted : exists (g : graph) s c,
  In s (G_vertices g) /\
  forall fuel, breadth_first_search_default (G_out_edges g) target (fun _ => true) fuel (G_vertices g) s c = Some (Raise AttributeError).
Proof. exists (G_init 1), 0, []. split; [left; reflexivity|]. intros fuel. reflexivity. Qed.
(** ... and it never works on a graph which has a vertex. *)
Theorem C38_default_visitor_never (g : graph) s c fuel if_push : G_vertices g <> [] ->
  breadth_first_search_default (G_out_edges g) target if_push fuel (G_vertices g) s c = Some (Raise AttributeError).
Proof. intros N. unfold breadth_first_search_default. destruct (G_vertices g); [contradiction|reflexivity]. Qed.
Theorem C37_graph (g : graph) if_push sources c : NoDup sources ->
  (forall s v, In s sources -> steps (next (G_out_edges g) target if_push) s v -> color_of c v = WHITE) ->
  exists t c' dist, bfs_calls (G_out_edges g) target if_push sources c t c' /\ NoDup (discovered t) /\
    (forall v, In v (discovered t) <-> exists s, In s sources /\ steps (next (G_out_edges g) target if_push) s v) /\
    Permutation (finished t) (discovered t) /\
    Permutation (examined t) (flat_map (fun u => filter if_push (G_out_edges g u)) (discovered t)) /\
    (forall v, In v (discovered t) -> distance (G_out_edges g) target if_push sources v (dist v)) /\ StronglySorted le (map dist (discovered t)) /\
    (forall e, In e (tree_edges t) -> dist (target e) = S (dist (source e))).
Proof.
  intros N W. destruct (C37_breadth_first_search_graph (G_out_edges g) target source if_push (G_finite g) sources c N W) as (t & c' & P & H1 & H2 & H3 & (rest & H4 & H4' & _) & (dist & H5 & H6 & H7) & _ & _).
  assert (PF : Permutation (finished t) (discovered t)) by (rewrite H4, H4'; apply Permutation_app_tail; symmetry; apply Permutation_rev).
  exists t, c', dist. split; [exact P|]. split; [exact H1|]. split; [exact H2|]. split; [exact PF|]. split; [rewrite H3; apply Permutation_flat_map, PF|].
  split; [exact H5|]. split; [exact H6|]. intros e I. apply (H7 (G_source g) e I).
Qed.
(** [ex_graph]: 0 -> 1 -> 2 -> 0, 0 -> 2, 3 -> 0; two sources *)
Example C37_example : NoDup [3; 1] /\
  match breadth_first_search_graph (G_out_edges ex_graph) target (fun _ => true) record_calls 20 (Some [3; 1]) [] [] with
  | Some (Ok (c, t)) => (discovered t, finished t, map target (examined t), tree_edges t) = ([3; 1; 2; 0], [1; 3; 2; 0], [2; 0; 0; 1; 2], [Edge 1 2 0; Edge 3 0 0])
  | _ => False
  end.
Proof. split; [repeat constructor; cbn; intuition discriminate|]. vm_compute. reflexivity. Qed.
Print Assumptions C37_breadth_first_search_graph.
Print Assumptions C37_breadth_first_search.
Print Assumptions C37_graph.
Print Assumptions C38_default_visitor_refuted.
Print Assumptions C38_default_visitor_never.
