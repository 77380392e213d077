(** Theorem C92: the calls of breadth_first_search_graph are those of a breadth-first search. *)
From Coq Require Import Sorted.
From Verif Require Import Base BaseProofs Graph Search SearchSpec SearchProofs SearchProofs2 TSearch BFSProofs TBFS BfsSpec BfsCalls.

Section T.
  Context {E : Type}.
  Variables (out_edges : nat -> list E) (target source : E -> nat) (if_push : E -> bool).
  Notation next := (next out_edges target if_push).
  Notation bfs_calls := (bfs_calls out_edges target if_push).
  Notation distance := (distance out_edges target if_push).
  Hypothesis FIN : finite_graph out_edges target.

  (** A search makes one sequence of calls. *)
  Lemma record_calls t : forall st : list (event E), calls (fun x st => Ok (st ++ [x])) t st = Ok (st ++ t).
  Proof. induction t as [|x t IH]; intros st; cbn [calls rbind]; [rewrite app_nil_r; reflexivity|]. rewrite IH, <- app_assoc. reflexivity. Qed.
  Lemma performs_unique {C} (search : forall St, (event E -> St -> res St) -> nat -> St -> option (res (C * St))) t t' c c' :
    performs search t c -> performs search t' c' -> t = t' /\ c = c'.
  Proof.
    intros P P'. destruct (P _ (fun x st => Ok (st ++ [x]))) as (k & H). destruct (P' _ (fun x st => Ok (st ++ [x]))) as (k' & H').
    specialize (H [] (k + k')). specialize (H' [] (k + k')). rewrite H in H' by lia. rewrite !record_calls in H'. specialize (H' ltac:(lia)). injection H' as -> H'. auto.
  Qed.

  (** C92: The sources are discovered in their order. Then the vertices are taken in the order of the queue; for each of
      them come its examination, the calls on its edges in the order of out_edges, and its end. *)
  Theorem C92_calls sources c : NoDup sources -> (forall s v, In s sources -> steps next s v -> color_of c v = WHITE) ->
    exists t c', bfs_calls sources c (map Discover sources ++ t) c' /\ on_vertices out_edges target if_push (finished t) t /\
    forall t1 x t2, t = t1 ++ x :: t2 -> legal target sources (map Discover sources ++ t1) x.
  Proof.
    intros ND W. destruct (closed_exists out_edges target if_push FIN sources) as (V & CV & IV).
    set (c1 := fold_left (fun c s => dset c s GRAY) sources c).
    destruct (brun_exists out_edges target source if_push (nodup Nat.eq_dec V) (NoDup_nodup _ _)) with (q := rev sources) (c := c1) (n := length (rev sources) + whites (nodup Nat.eq_dec V) c1) as (t & c' & B).
    { intros u v I N. apply nodup_In in I. apply nodup_In. apply (CV u v I N). }
    { intros v I. apply nodup_In. apply IV. apply in_rev, I. }
    { apply le_n. }
    destruct (discover_map (E := E) sources) as (M1 & M2 & M3 & M4).
    destruct (brun_legal out_edges target if_push sources (fun v => exists s, In s sources /\ steps next s v) _ _ _ _ B) with (t0 := map (@Discover E) sources) as [L1 L2].
    - intros u v (s & I & S) N. exists s. split; [exact I|]. eapply steps_trans; [exact S|]. econstructor; [exact N|constructor].
    - intros u I. exists u. split; [apply in_rev, I|constructor].
    - intros v (s & I & S). unfold c1. rewrite fold_gray. unfold hue. rewrite M1, M2. change (mem v []) with false. cbn iota. destruct (mem v sources); [reflexivity|]. apply (W s v I S).
    - rewrite M2, M4. cbn. apply app_nil_r.
    - exists t, c'. split; [|split; [exact L1|exact L2]].
      intros St vis. destruct (brun_calls out_edges target if_push vis _ _ _ _ B) as (k & H). exists k. intros st fuel L. unfold breadth_first_search_graph.
      rewrite bfs_sources_calls, app_nil_r, calls_app. destruct (calls vis (map Discover sources) st) as [st1|x]; cbn [rbind]; [|reflexivity]. apply H, L.
  Qed.

  (** a call on an edge is made between the examination and the end of its source *)
  Lemma edges_no_finish l t : on_edges target if_push l t -> finished t = [].
  Proof. induction 1; auto. Qed.
  Lemma edges_in l t : on_edges target if_push l t -> forall e, In (Tree e) t \/ In (GrayTarget e) t \/ In (BlackTarget e) t -> In e l /\ if_push e = true.
  Proof.
    induction 1 as [|e' l t P H IH|e' l t P H IH|e' l t P H IH|e' l t P H IH]; intros e D; cbn in D.
    - tauto.
    - destruct (IH e) as [A A']; [|cbn; auto]. destruct D as [[D|D]|[[D|D]|[D|D]]]; try discriminate D; auto.
    - destruct D as [[D|[D|[D|[D|D]]]]|[[D|[D|[D|[D|D]]]]|[D|[D|[D|[D|D]]]]]]; try discriminate D; try (injection D as <-; cbn; auto); destruct (IH e) as [A A']; cbn; auto.
    - destruct D as [[D|[D|[D|[D|D]]]]|[[D|[D|[D|[D|D]]]]|[D|[D|[D|[D|D]]]]]]; try discriminate D; try (injection D as <-; cbn; auto); destruct (IH e) as [A A']; cbn; auto.
    - destruct D as [[D|[D|[D|[D|D]]]]|[[D|[D|[D|[D|D]]]]|[D|[D|[D|[D|D]]]]]]; try discriminate D; try (injection D as <-; cbn; auto); destruct (IH e) as [A A']; cbn; auto.
  Qed.
  Lemma split_app {X} (a b t1 t2 : list X) x : a ++ b = t1 ++ x :: t2 ->
    (exists d, a = t1 ++ x :: d /\ t2 = d ++ b) \/ (exists d, t1 = a ++ d /\ b = d ++ x :: t2).
  Proof.
    revert t1. induction a as [|y a IH]; intros t1 Q; [right; exists t1; auto|]. destruct t1 as [|z t1]; cbn in Q; injection Q as -> Q.
    - left. exists a. auto.
    - destruct (IH t1 Q) as [(d & -> & ->)|(d & -> & ->)]; [left|right]; exists d; auto.
  Qed.
  Lemma current l t : on_vertices out_edges target if_push l t -> forall t1 x t2 e, t = t1 ++ x :: t2 -> x = Tree e \/ x = GrayTarget e \/ x = BlackTarget e ->
    exists u fs, In e (out_edges u) /\ if_push e = true /\ finished t = finished t1 ++ u :: fs.
  Proof.
    induction 1 as [|u l te t' O H IH]; intros t1 x t2 e Q D; [destruct t1; discriminate|].
    destruct t1 as [|y t1]; cbn in Q; injection Q as QX Q; [destruct D as [-> | [-> | ->]]; discriminate|]. subst y.
    pose proof (edges_no_finish _ _ O) as F. destruct (split_app _ _ _ _ _ Q) as [(d & -> & ->)|(d & -> & QD)].
    - exists u, (finished t'). destruct (edges_in _ _ O e) as [A A']; [rewrite !in_app_iff; cbn; destruct D as [-> | [-> | ->]]; auto|]. split; [exact A|]. split; [exact A'|].
      pose proof F as F'. rewrite fin_app in F'. apply app_eq_nil in F'. destruct F' as [F1 _].
      change (finished (ExamineVertex u :: t1)) with (finished t1). rewrite F1.
      change (ExamineVertex u :: (t1 ++ x :: d) ++ Finish u :: t') with ([ExamineVertex u] ++ (t1 ++ x :: d) ++ [Finish u] ++ t').
      rewrite (fin_app [ExamineVertex u]), (fin_app (t1 ++ x :: d)), F. reflexivity.
    - destruct d as [|y d]; cbn in QD; injection QD as QX QD; [destruct D as [-> | [-> | ->]]; discriminate|]. subst y. destruct (IH d x t2 e QD D) as (w & fs & A & A' & A''). exists w, fs. split; [exact A|]. split; [exact A'|].
      change (ExamineVertex u :: te ++ Finish u :: t') with ([ExamineVertex u] ++ te ++ [Finish u] ++ t'). change (ExamineVertex u :: te ++ Finish u :: d) with ([ExamineVertex u] ++ te ++ [Finish u] ++ d).
      rewrite !fin_app, F. cbn [app finished flat_map]. fold (finished t') (finished d). rewrite A''. reflexivity.
  Qed.

  Lemma distance_unique sources v n m : distance sources v n -> distance sources v m -> n = m.
  Proof. intros ((s & I & W) & L) ((s' & I' & W') & L'). specialize (L s' m I' W'). specialize (L' s n I W). lia. Qed.
  Lemma distance_next sources u v n m : distance sources u n -> distance sources v m -> next u v -> m <= S n.
  Proof.
    intros ((s & I & W) & _) (_ & L) N. apply (L s (S n) I). clear -W N. induction W as [x|k x y z X W IH]; [econstructor; [exact N|constructor]|]. econstructor; [exact X|]. apply IH, N.
  Qed.
  Lemma sorted_split {X} (f : X -> nat) a x b : StronglySorted le (map f (a ++ x :: b)) -> (forall y, In y a -> f y <= f x) /\ (forall y, In y b -> f x <= f y).
  Proof.
    induction a as [|z a IH]; cbn [app map]; intros S; inversion S as [|? ? S' F]; subst; rewrite Forall_forall in F.
    - split; [intros y []|]. intros y I. apply F, in_map, I.
    - destruct (IH S') as [I1 I2]. split; [|exact I2]. intros y [<-|I]; [|apply I1, I]. apply F, in_map, in_app_iff. right. left. reflexivity.
  Qed.

  (** When a vertex is discovered, every vertex closer to the sources is discovered and no farther one is. *)
  Theorem C92_discovery sources c t c' : NoDup sources -> (forall s v, In s sources -> steps next s v -> color_of c v = WHITE) -> bfs_calls sources c t c' ->
    forall t1 v t2, t = t1 ++ Discover v :: t2 -> exists n, distance sources v n /\ forall w m, distance sources w m ->
      (m < n -> In w (discovered t1)) /\ (n < m -> ~ In w (discovered t1)).
  Proof.
    intros ND W P t1 v t2 Q. destruct (C37_breadth_first_search_graph out_edges target source if_push FIN sources c ND W) as (t' & c'' & P' & _ & H2 & _ & _ & (dist & H5 & H6 & _) & _).
    destruct (performs_unique _ _ _ _ _ P P') as [<- _]. rewrite Q, disc_app in H5, H6. change (discovered (Discover v :: t2)) with (v :: discovered t2) in *.
    destruct (sorted_split dist _ _ _ H6) as [S1 S2]. exists (dist v). split; [apply H5, in_app_iff; right; left; reflexivity|]. intros w m D.
    assert (Iw : In w (discovered t1 ++ v :: discovered t2)).
    { change (v :: discovered t2) with (discovered (Discover v :: t2)). rewrite <- disc_app, <- Q. apply H2. destruct D as ((s & I & X) & _). exists s. split; [exact I|]. eapply walk_steps, X. }
    assert (DW : dist w = m) by (eapply distance_unique; [apply H5, Iw|exact D]). split; intros L.
    - apply in_app_iff in Iw. destruct Iw as [I|[->|I]]; [exact I|lia|]. specialize (S2 w I). lia.
    - intros I. specialize (S1 w I). lia.
  Qed.

  (** A tree edge goes one step farther from the sources; an edge whose target is gray goes to the same distance or one
      step farther; an edge whose target is black does not go farther. *)
  Theorem C92_edges sources c t c' : (forall u e, In e (out_edges u) -> source e = u) -> NoDup sources ->
    (forall s v, In s sources -> steps next s v -> color_of c v = WHITE) -> bfs_calls sources c t c' ->
    forall e, In (Tree e) t \/ In (GrayTarget e) t \/ In (BlackTarget e) t -> exists n m, distance sources (source e) n /\ distance sources (target e) m /\
      (In (Tree e) t -> m = S n) /\ (In (GrayTarget e) t -> n <= m <= S n) /\ (In (BlackTarget e) t -> m <= n).
  Proof.
    intros SRC ND W P e IT. destruct (C92_calls sources c ND W) as (t' & c1 & P1 & OV & LG). destruct (performs_unique _ _ _ _ _ P P1) as [-> _].
    destruct (C37_breadth_first_search_graph out_edges target source if_push FIN sources c ND W) as (t'' & c2 & P2 & _ & H2 & _ & (rest & R1 & R2 & R3) & (dist & H5 & H6 & H7) & _).
    destruct (performs_unique _ _ _ _ _ P P2) as [<- _]. destruct (discover_map (E := E) sources) as (M1 & M2 & M3 & M4).
    rewrite disc_app, M1 in R1. apply app_inv_head in R1. rewrite fin_app, M2 in R2. cbn [app] in R2.
    assert (DT : discovered (map Discover sources ++ t') = sources ++ rest) by (rewrite disc_app, M1, R1; reflexivity). rewrite DT in *.
    assert (D0 : forall s, In s sources -> dist s = 0).
    { intros s I. destruct (H5 s) as (_ & L); [apply in_app_iff; auto|]. specialize (L s 0 I (walk_0 _ _)). lia. }
    assert (SF : StronglySorted le (map dist (finished t'))).
    { rewrite R2, map_app. apply sorted_app.
      - apply (sorted_const _ 0). intros x X. apply in_map_iff in X. destruct X as (s & <- & I). apply D0, in_rev, I.
      - rewrite map_app in H6. clear -H6. induction (map dist sources) as [|x l IH]; [exact H6|]. inversion H6; subst. apply IH. assumption.
      - intros x y X _. apply in_map_iff in X. destruct X as (s & <- & I). rewrite D0 by (apply in_rev, I). lia. }
    assert (FD : forall v, In v (finished t') <-> In v (sources ++ rest)) by (intros v; rewrite R2, !in_app_iff, <- in_rev; tauto).
    assert (OUT : forall x, In x (map Discover sources ++ t') -> x = Tree e \/ x = GrayTarget e \/ x = BlackTarget e -> In x t').
    { intros x I D. apply in_app_iff in I. destruct I as [I|I]; [|exact I]. apply in_map_iff in I. destruct I as (s & <- & _). destruct D as [D|[D|D]]; discriminate. }
    assert (AT : forall x, In x (map Discover sources ++ t') -> x = Tree e \/ x = GrayTarget e \/ x = BlackTarget e -> exists t1 t2 fs, t' = t1 ++ x :: t2 /\
      legal target sources (map Discover sources ++ t1) x /\ In e (out_edges (source e)) /\ if_push e = true /\ finished t' = finished t1 ++ source e :: fs).
    { intros x I D. specialize (OUT x I D). apply in_split in OUT. destruct OUT as (t1 & t2 & Q). destruct (current _ _ OV t1 x t2 e Q D) as (u & fs & A & A' & A''). rewrite (SRC u e A).
      exists t1, t2, fs. split; [exact Q|]. split; [apply (LG _ _ _ Q)|]. auto. }
    assert (ST : In (source e) (sources ++ rest) /\ In (target e) (sources ++ rest) /\ next (source e) (target e)).
    { assert (X : exists (t1 : list (event E)) fs, In e (out_edges (source e)) /\ if_push e = true /\ finished t' = finished t1 ++ source e :: fs).
      { destruct IT as [I|[I|I]]; (edestruct (AT _ I) as (t1 & t2 & fs & _ & _ & A); [auto|]); exists t1, fs; exact A. }
      destruct X as (t1 & fs & A & A' & A''). assert (IS : In (source e) (sources ++ rest)) by (apply FD; rewrite A'', in_app_iff; cbn; auto).
      assert (N : next (source e) (target e)) by (exists e; auto). split; [exact IS|]. split; [|exact N]. apply H2. apply H2 in IS. destruct IS as (s & I & S). exists s. split; [exact I|].
      eapply steps_trans; [exact S|]. econstructor; [exact N|constructor]. }
    destruct ST as (IS & IG & N). exists (dist (source e)), (dist (target e)). split; [apply H5, IS|]. split; [apply H5, IG|].
    pose proof (distance_next _ _ _ _ _ (H5 _ IS) (H5 _ IG) N) as LE. split; [|split].
    - intros I. apply (H7 SRC e). unfold tree_edges. apply in_flat_map. exists (Tree e). split; [exact I|left; reflexivity].
    - intros I. split; [|exact LE]. destruct (AT _ I) as (t1 & t2 & fs & Q & (_ & L) & _ & _ & A); [auto|]. rewrite fin_app, M2 in L. cbn [app] in L.
      assert (J : In (target e) (finished t1 ++ source e :: fs)) by (rewrite <- A; apply FD, IG). rewrite A in SF. destruct (sorted_split dist _ _ _ SF) as [_ S2].
      apply in_app_iff in J. destruct J as [J|[J|J]]; [contradiction|rewrite J; apply le_n|apply S2, J].
    - intros I. destruct (AT _ I) as (t1 & t2 & fs & Q & L & _ & _ & A); [auto|]. cbn in L. rewrite fin_app, M2 in L. cbn [app] in L.
      rewrite A in SF. destruct (sorted_split dist _ _ _ SF) as [S1 _]. apply S1, L.
  Qed.

  Lemma walk_snoc {X} (R : X -> X -> Prop) n x y z : walk R n x y -> R y z -> walk R (S n) x z.
  Proof. intros W N. induction W as [x|k x w y X0 W IH]; [econstructor; [exact N|constructor]|]. econstructor; [exact X0|]. apply IH, N. Qed.

  (** The tree edges form shortest paths: a reachable vertex is at the end of a path of tree edges, from a source, as
      long as its distance. *)
  Theorem C92_tree sources c t c' : (forall u e, In e (out_edges u) -> source e = u) -> NoDup sources ->
    (forall s v, In s sources -> steps next s v -> color_of c v = WHITE) -> bfs_calls sources c t c' ->
    forall v n, distance sources v n -> exists s, In s sources /\ walk (down source target t) n s v.
  Proof.
    intros SRC ND W P v n D. destruct (C37_breadth_first_search_graph out_edges target source if_push FIN sources c ND W) as (t'' & c2 & P2 & _ & H2 & _ & (rest & R1 & R2 & R3) & (dist & H5 & H6 & H7) & _).
    destruct (performs_unique _ _ _ _ _ P P2) as [<- _].
    assert (Iv : In v (discovered t)) by (apply H2; destruct D as ((s & I & X) & _); exists s; split; [exact I|eapply walk_steps, X]).
    rewrite <- (distance_unique _ _ _ _ (H5 v Iv) D). clear D. remember (dist v) as k eqn:K. revert v Iv K. induction k as [|k IH]; intros v Iv K.
    - pose proof Iv as J. rewrite R1 in J. apply in_app_iff in J. destruct J as [J|J]; [exists v; split; [exact J|constructor]|]. rewrite R3 in J. apply in_map_iff in J. destruct J as (e & <- & J).
      destruct (H7 SRC e J) as [_ X]. lia.
    - pose proof Iv as J. rewrite R1 in J. apply in_app_iff in J. destruct J as [J|J].
      { destruct (H5 v Iv) as (_ & L). specialize (L v 0 J (walk_0 _ _)). lia. }
      rewrite R3 in J. apply in_map_iff in J. destruct J as (e & <- & J). destruct (H7 SRC e J) as [A X]. destruct (IH (source e) A) as (s & I & Y); [lia|].
      exists s. split; [exact I|]. eapply walk_snoc; [exact Y|]. exists e. auto.
  Qed.

  (** The same for the entry point breadth_first_search, whatever the color map holds. *)
  Theorem C92_breadth_first_search vertices s c : (forall v, steps next s v -> In v vertices) -> exists t c' c1,
    performs (fun St vis fuel st => breadth_first_search out_edges target if_push vis fuel vertices s c st) (map Init vertices ++ Discover s :: t) c' /\
    (forall v, steps next s v -> color_of c1 v = WHITE) /\ bfs_calls [s] c1 (Discover s :: t) c' /\
    on_vertices out_edges target if_push (finished t) t /\ forall t1 x t2, t = t1 ++ x :: t2 -> legal target [s] (Discover s :: t1) x.
  Proof.
    intros IV. set (c1 := fold_left (fun c u => dset c u WHITE) vertices c).
    assert (C1 : forall l c v, color_of (fold_left (fun c u => dset c u WHITE) l c) v = if mem v l then WHITE else color_of c v).
    { induction l as [|u l IH]; intros c2 v; [reflexivity|]. cbn [fold_left]. rewrite IH. change (mem v (u :: l)) with (eqb v u || mem v l). unfold color_of at 1. rewrite dget_dset. destruct (eqb_spec v u), (mem v l); reflexivity. }
    assert (W : forall v, steps next s v -> color_of c1 v = WHITE).
    { intros v S. unfold c1. rewrite C1. destruct (mem_reflect v vertices) as [M|M]; [reflexivity|]. destruct M. apply IV, S. }
    destruct (C92_calls [s] c1) as (t & c' & P & O & L).
    { constructor; [intros []|constructor]. }
    { intros x v [<-|[]]. apply W. }
    exists t, c', c1. split; [|split; [exact W|split; [exact P|split; [exact O|exact L]]]].
    intros St vis. destruct (P St vis) as (k & H). exists k. intros st fuel LE. unfold breadth_first_search.
    assert (X : forall l c st, bfs_init vis l c st = match calls vis (map Init l) st with Ok st' => Ok (fold_left (fun c u => dset c u WHITE) l c, st') | Raise x => Raise x end).
    { induction l as [|u l IH]; intros c2 st2; [reflexivity|]. cbn [bfs_init map calls fold_left]. destruct (vis (Init u) st2) as [st3|x]; cbn [rbind]; [apply IH|reflexivity]. }
    rewrite X, calls_app. destruct (calls vis (map Init vertices) st) as [st1|x]; cbn [rbind]; [|reflexivity]. apply H, LE.
  Qed.
End T.

(** two sources, a loop, an edge to a gray vertex, one to a black vertex, a rejected edge *)
Definition c92_out (u : nat) : list (nat * nat) :=
  match u with 0 => [(0, 0); (0, 2)] | 1 => [(1, 2); (1, 3); (1, 5)] | 2 => [(2, 3); (2, 0)] | 3 => [(3, 4)] | _ => [] end.
Definition c92_push (e : nat * nat) : bool := negb (snd e =? 5).
Example c92_finite : finite_graph c92_out snd.
Proof. exists [0; 2; 3; 5; 4]. intros u e I. destruct u as [|[|[|[|u]]]]; cbn in I; intuition (subst; cbn; auto 10). Qed.
Example c92_source u e : In e (c92_out u) -> fst e = u.
Proof. intros I. destruct u as [|[|[|[|u]]]]; cbn in I; intuition (subst; reflexivity). Qed.
Example c92_run : breadth_first_search_graph c92_out snd c92_push (fun x st => Ok (st ++ [x])) 20 (Some [0; 1]) [] [] =
  Some (Ok ([(0, BLACK); (1, BLACK); (2, BLACK); (3, BLACK); (4, BLACK)],
    [Discover 0; Discover 1;
     ExamineVertex 1; Ask (1, 2); Examine (1, 2); Tree (1, 2); Discover 2; Ask (1, 3); Examine (1, 3); Tree (1, 3); Discover 3; Ask (1, 5); Finish 1;
     ExamineVertex 0; Ask (0, 0); Examine (0, 0); NonTree (0, 0); GrayTarget (0, 0); Ask (0, 2); Examine (0, 2); NonTree (0, 2); GrayTarget (0, 2); Finish 0;
     ExamineVertex 2; Ask (2, 3); Examine (2, 3); NonTree (2, 3); GrayTarget (2, 3); Ask (2, 0); Examine (2, 0); NonTree (2, 0); BlackTarget (2, 0); Finish 2;
     ExamineVertex 3; Ask (3, 4); Examine (3, 4); Tree (3, 4); Discover 4; Finish 3; ExamineVertex 4; Finish 4])).
Proof. vm_compute. reflexivity. Qed.
Example c92_calls : exists t c', bfs_calls c92_out snd c92_push [0; 1] [] (map Discover [0; 1] ++ t) c' /\ on_vertices c92_out snd c92_push (finished t) t /\
  forall t1 x t2, t = t1 ++ x :: t2 -> legal snd [0; 1] (map Discover [0; 1] ++ t1) x.
Proof. apply C92_calls; [exact (fun e => fst e)|exact c92_finite| |reflexivity]. repeat constructor; cbn; intuition discriminate. Qed.

Print Assumptions C92_calls.
Print Assumptions C92_discovery.
Print Assumptions C92_edges.
Print Assumptions C92_tree.
Print Assumptions C92_breadth_first_search.
