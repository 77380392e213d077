(** Theorems C129: the graph algorithms agree with each other. *)
From Coq Require Import Sorted ZArith.
From Verif Require Import Graph GraphSpec GraphProofs GraphProofs2 Search SearchSpec SearchProofs SearchProofs2 SearchUsers SearchUsersSpec SearchUsersProofs TSearch TSearchUsers TTarjan TBFS Heap Dijkstra DijkstraSpec TDijkstra View Base BaseProofs.
Open Scope nat_scope.

(** The vertices are listed once; an edge leaving u has u for source, and its ends are vertices. *)
Definition plain_graph {E} (g : api E) : Prop :=
  NoDup (api_vertices g) /\
  forall u e, In e (api_out_edges g u) -> api_source g e = u /\ In u (api_vertices g) /\ In (api_target g e) (api_vertices g).
(** moreover the edges entering v are those of target v *)
Definition two_way_graph {E} (g : api E) : Prop :=
  plain_graph g /\ forall v e, In e (api_in_edges g v) <-> In e (api_out_edges g (api_source g e)) /\ api_target g e = v.

(** The two algorithms on an object with the API of a graph (topological_sort.py:34-59, strong_components.py:100-147). *)
Definition topological_sort_of {E} (g : api E) fuel := topological_sort (api_out_edges g) (api_target g) (api_vertices g) fuel [].
Definition strong_components_of {E} `{EqDec E} (g : api E) fuel := strong_components (api_out_edges g) (api_target g) (api_vertices g) fuel (fun _ => None).

Section Count.
  Lemma some_seq_nodup n : NoDup (map (@Some nat) (seq 0 n)).
  Proof. apply FinFun.Injective_map_NoDup; [intros x y [=]; assumption|apply seq_NoDup]. Qed.
  Lemma inj_nodup {X Y} (f : X -> Y) l : NoDup l -> (forall x y, In x l -> In y l -> f x = f y -> x = y) -> NoDup (map f l).
  Proof.
    induction l as [|x l IH]; intros ND I; [constructor|]. inversion ND; subst. cbn [map]. constructor.
    - intros J. apply in_map_iff in J. destruct J as (y & E & J). assert (y = x) by (apply I; [right; exact J|left; reflexivity|exact E]). subst. contradiction.
    - apply IH; [assumption|]. intros a b A B. apply I; right; assumption.
  Qed.
  Lemma nodup_inj {X Y} (f : X -> Y) l x y : NoDup (map f l) -> In x l -> In y l -> f x = f y -> x = y.
  Proof.
    induction l as [|z l IH]; [intros _ []|]. cbn [map]. intros ND. inversion ND; subst. intros [->|I] [->|J] E; [reflexivity| | |apply IH; assumption].
    - destruct H1. rewrite E. apply in_map, J.
    - destruct H1. rewrite <- E. apply in_map, I.
  Qed.
  Variables (comp comp' : nat -> option nat) (total total' : nat) (V : list nat).
  Hypothesis IN : forall u, In u V -> exists k, comp u = Some k /\ k < total.
  Hypothesis ON : forall k, k < total -> exists u, In u V /\ comp u = Some k.
  Hypothesis IN' : forall u, In u V -> exists k, comp' u = Some k /\ k < total'.
  Lemma count_inj : NoDup V -> (total = length V <-> forall u v, In u V -> In v V -> comp u = comp v -> u = v).
  Proof.
    intros ND.
    assert (A : incl (map Some (seq 0 total)) (map comp V)).
    { intros x J. apply in_map_iff in J. destruct J as (k & <- & J). apply in_seq in J. destruct (ON k) as (u & I & E); [lia|]. rewrite <- E. apply in_map, I. }
    assert (B : incl (map comp V) (map Some (seq 0 total))).
    { intros x J. apply in_map_iff in J. destruct J as (u & <- & J). destruct (IN u J) as (k & -> & L). apply in_map, in_seq. lia. }
    split.
    - intros EQ u v I J E. apply (nodup_inj comp V); try assumption.
      apply (NoDup_incl_NoDup (l := map Some (seq 0 total))); [apply some_seq_nodup|rewrite !map_length, seq_length; lia|exact A].
    - intros I. pose proof (NoDup_incl_length (some_seq_nodup total) A) as L1. pose proof (NoDup_incl_length (inj_nodup comp V ND I) B) as L2.
      rewrite !map_length, seq_length in *. lia.
  Qed.
  Lemma count_le : (forall u v, In u V -> In v V -> comp' u = comp' v -> comp u = comp v) -> total <= total'.
  Proof.
    intros S. assert (R : forall n, n <= total -> exists L, incl L V /\ map comp L = map Some (seq 0 n)).
    { induction n as [|n IH]; intros LE; [exists []; split; [intros x []|reflexivity]|]. destruct IH as (L & I & E); [lia|]. destruct (ON n) as (u & J & Eu); [lia|].
      exists (L ++ [u]). split; [apply incl_app; [exact I|intros x [<-|[]]; exact J]|]. rewrite seq_S, !map_app, E. cbn [map Nat.add]. rewrite Eu. reflexivity. }
    destruct (R total (le_n _)) as (L & I & E). pose proof (some_seq_nodup total) as ND. rewrite <- E in ND.
    assert (NL : NoDup L) by apply (NoDup_map_inv _ _ ND).
    assert (N' : NoDup (map comp' L)).
    { apply inj_nodup; [exact NL|]. intros x y X Y Q. apply (nodup_inj comp L x y ND X Y). apply S; auto. }
    assert (B : incl (map comp' L) (map Some (seq 0 total'))).
    { intros x J. apply in_map_iff in J. destruct J as (u & <- & J). destruct (IN' u (I u J)) as (k & -> & Lt). apply in_map, in_seq. lia. }
    pose proof (NoDup_incl_length N' B) as LL. rewrite !map_length, seq_length in LL. assert (Q : length (map comp L) = total) by (rewrite E, map_length, seq_length; reflexivity). rewrite map_length in Q. lia.
  Qed.
End Count.

Section Cross.
  Context {E : Type} {EE : EqDec E}.
  Variable g : api E.
  Hypothesis PG : plain_graph g.
  Notation V := (api_vertices g).
  Notation out := (api_out_edges g).
  Notation src := (api_source g).
  Notation tgt := (api_target g).
  Notation arc := (SearchUsersSpec.arc out tgt).

  Lemma plain_finite : finite_graph out tgt.
  Proof. exists V. intros u e I. apply (proj2 PG u e I). Qed.
  Lemma plain_source u e : In e (out u) -> src e = u.
  Proof. intros I. apply (proj2 PG u e I). Qed.
  Lemma plain_reached v : reached out tgt V v <-> In v V.
  Proof.
    split; [|intros I; exists v; split; [exact I|constructor]]. intros (s & I & S). induction S as [s|s y z (e & A & <-) S IH]; [exact I|]. apply IH, (proj2 PG s e A).
  Qed.
  (** strong_components on such a graph (C36) *)
  Lemma plain_strong : exists comp total bound,
    (forall fuel, bound <= fuel -> strong_components_of g fuel = Some (Ok (comp, total))) /\
    (forall u, In u V -> exists k, comp u = Some k /\ k < total) /\
    (forall k, k < total -> exists u, In u V /\ comp u = Some k) /\
    (forall u v, In u V -> In v V -> (comp u = comp v <-> connected out tgt u v)) /\
    (forall u v ku kv, In u V -> arc u v -> comp u = Some ku -> comp v = Some kv -> kv <= ku).
  Proof.
    destruct (C36_strong_components out src tgt V (fun _ => None) plain_finite plain_source) as (comp & total & b & H1 & H2 & H3 & H4 & H5).
    exists comp, total, b. split; [exact H1|]. split; [intros u I; apply H2, plain_reached, I|]. split.
    - intros k L. destruct (H3 k L) as (u & A & B). exists u. split; [apply plain_reached, A|exact B].
    - split; [intros u v A B; apply H4; apply plain_reached; assumption|]. intros u v ku kv A. apply H5, plain_reached, A.
  Qed.
  Lemma plain_topo : exists r bound, (forall fuel, bound <= fuel -> topological_sort_of g fuel = Some r) /\
    (r = Raise RuntimeError \/ exists l, r = Ok l) /\
    ((exists l, r = Ok l) <-> forall v, In v V -> ~ plus arc v v) /\
    (forall l, r = Ok l -> Permutation l V /\ forall u v, arc u v -> before l u v).
  Proof.
    destruct (graph_run out tgt plain_finite V) as (t & c' & R). destruct (topo_run out tgt V t c' R) as (k & H). pose proof (topo_back out src tgt plain_source V t c' R) as B.
    destruct (back_edges t) as [|e l] eqn:BE.
    - assert (AC : acyclic_from out tgt V). { intros v I C. destruct (proj2 B); [|reflexivity]. exists v. split; assumption. }
      destruct (C35_topological_sort out src tgt plain_finite plain_source V AC) as (l & b & T1 & T2 & T3 & T4).
      exists (Ok l), b. split; [|split; [right; exists l; reflexivity|split]].
      + intros fuel L. unfold topological_sort_of. rewrite (T1 fuel [] L), app_nil_r. reflexivity.
      + split; [|intros _; exists l; reflexivity]. intros _ v I. apply AC, plain_reached, I.
      + intros l' [= <-]. split; [|intros u v A; apply T4; [|exact A]; apply T3, plain_reached; destruct A as (e & I & _); apply (proj2 PG u e I)].
        apply NoDup_Permutation; [exact T2|apply PG|]. intros v. rewrite T3. apply plain_reached.
    - exists (Raise RuntimeError), k. split; [|split; [left; reflexivity|split; [|discriminate]]].
      + intros fuel L. apply H, L.
      + split; [intros (l' & X); discriminate|]. intros N. destruct (proj1 B) as (v & Rv & C); [discriminate|]. destruct (N v); [apply plain_reached, Rv|exact C].
  Qed.

  (** C129, topological_sort and strong_components: the sort succeeds exactly when every strongly connected component is a
      single vertex and there is no loop; and then the numbers of the components decrease strictly along the edges. *)
  Theorem C129_topological_strong : exists comp total r bound,
    (forall fuel, bound <= fuel -> strong_components_of g fuel = Some (Ok (comp, total)) /\ topological_sort_of g fuel = Some r) /\
    ((exists l, r = Ok l) <-> total = length V /\ forall u e, In e (out u) -> tgt e <> u) /\
    (forall l, r = Ok l -> Permutation l V /\
       forall u e, In e (out u) -> before l u (tgt e) /\ exists ku kv, comp u = Some ku /\ comp (tgt e) = Some kv /\ kv < ku).
  Proof.
    destruct plain_strong as (comp & total & b & S1 & S2 & S3 & S4 & S5). destruct plain_topo as (r & b' & T1 & T0 & T2 & T3).
    exists comp, total, r, (max b b'). split; [intros fuel L; split; [apply S1|apply T1]; lia|].
    assert (INJ : (exists l, r = Ok l) -> forall u v, In u V -> In v V -> comp u = comp v -> u = v).
    { intros OK u v I J Q. apply (S4 u v I J) in Q. destruct Q as [Q1 Q2]. destruct Q1 as [u|u y v A Q1]; [reflexivity|]. exfalso. apply (proj1 T2 OK u I). exists y. split; [exact A|].
      apply (steps_trans _ y v); assumption. }
    assert (NL : (exists l, r = Ok l) -> forall u e, In e (out u) -> tgt e <> u).
    { intros OK u e I Q. apply (proj1 T2 OK u); [apply (proj2 PG u e I)|]. exists u. split; [exists e; auto|constructor]. }
    split.
    - split.
      + intros OK. split; [|apply NL, OK]. apply (count_inj comp total V S2 S3 (proj1 PG)), INJ, OK.
      + intros (CT & NO). apply T2. intros v I (y & (e & Ie & Et) & S).
        assert (Y : In y V) by (subst y; apply (proj2 PG v e Ie)).
        assert (Q : v = y). { apply (proj1 (count_inj comp total V S2 S3 (proj1 PG)) CT v y I Y). apply S4; [exact I|exact Y|]. split; [|exact S]. econstructor; [|constructor]. exists e; auto. }
        apply (NO v e Ie). congruence.
    - intros l Rl. destruct (T3 l Rl) as [P B]. split; [exact P|]. intros u e I. destruct (proj2 PG u e I) as (_ & Iu & It).
      split; [apply B; exists e; auto|]. destruct (S2 u Iu) as (ku & Ku & _). destruct (S2 _ It) as (kv & Kv & _). exists ku, kv. split; [exact Ku|]. split; [exact Kv|].
      assert (Ar : arc u (tgt e)) by (exists e; auto). pose proof (S5 u (tgt e) ku kv Iu Ar Ku Kv). destruct (Nat.eq_dec kv ku) as [->|]; [|lia].
      exfalso. apply (NL (ex_intro _ l Rl) u e I). apply (INJ (ex_intro _ l Rl)); [exact It|exact Iu|congruence].
  Qed.

  (** Walks as lists of edges (DijkstraSpec) and as chains of vertices of a given length (SearchSpec). *)
  Lemma walk_edges n x y : walk (next out tgt all_edges) n x y <-> exists p, walk_of out tgt x p y /\ length p = n.
  Proof.
    split.
    - induction 1 as [x|n x y z (e & I & _ & <-) W (p & P & L)]; [exists []; split; [constructor|reflexivity]|]. exists (e :: p). split; [constructor; assumption|]. cbn. lia.
    - intros (p & P & <-). induction P as [x|x e p y I P IH]; [constructor|]. cbn [length]. econstructor; [|exact IH]. exists e. auto.
  Qed.
  Lemma walk_in_V x p y : walk_of out tgt x p y -> In x V -> In y V.
  Proof. induction 1 as [x|x e p y I W IH]; [auto|]. intros _. apply IH, (proj2 PG x e I). Qed.
  Lemma walk_app x p y q z : walk_of out tgt x p y -> walk_of out tgt y q z -> walk_of out tgt x (p ++ q) z.
  Proof. induction 1 as [x|x e p y I W IH]; [auto|]. intros Q. cbn [app]. constructor; auto. Qed.
  Lemma walk_split p : forall x q y, walk_of out tgt x (p ++ q) y -> exists z, walk_of out tgt x p z /\ walk_of out tgt z q y.
  Proof.
    induction p as [|e p IH]; intros x q y W; [exists x; split; [constructor|exact W]|]. inversion W; subst. destruct (IH _ _ _ H4) as (z & A & B). exists z. split; [constructor; assumption|exact B].
  Qed.
  (** a walk of least length visits no vertex twice: it has fewer edges than there are vertices *)
  Lemma short_walk s v p : In s V -> walk_of out tgt s p v -> (forall q, walk_of out tgt s q v -> length p <= length q) -> length p < length V.
  Proof.
    intros Is W MIN. assert (X : NoDup (s :: map tgt p) /\ incl (s :: map tgt p) V).
    { split.
      - assert (G : forall p1 p2, p = p1 ++ p2 -> forall z, walk_of out tgt s p1 z -> walk_of out tgt z p2 v -> ~ In z (map tgt p2)).
        { intros p1 p2 EQ z W1 W2 I. apply in_map_iff in I. destruct I as (e & Et & I). apply in_split in I. destruct I as (a & b & ->).
          destruct (walk_split a z (e :: b) v W2) as (z' & _ & W3). inversion W3; subst. specialize (MIN (p1 ++ b)). rewrite !app_length in MIN. cbn [length] in MIN.
          enough (length p1 + (length a + S (length b)) <= length p1 + length b) by lia. apply MIN. eapply walk_app; [exact W1|exact H4]. }
        constructor; [apply (G [] p eq_refl s); [constructor|exact W]|].
        assert (K : forall p2 p1 z, p = p1 ++ p2 -> walk_of out tgt s p1 z -> walk_of out tgt z p2 v -> NoDup (map tgt p2)); [|apply (K p [] s eq_refl); [constructor|exact W]].
        induction p2 as [|e p2 IH]; intros p1 z EQ W1 W2; [constructor|]. inversion W2; subst. cbn [map].
        assert (W4 : walk_of out tgt s (p1 ++ [e]) (tgt e)) by (eapply walk_app; [exact W1|constructor; [assumption|constructor]]).
        assert (EQ' : p1 ++ e :: p2 = (p1 ++ [e]) ++ p2) by (rewrite <- app_assoc; reflexivity).
        constructor; [apply (G (p1 ++ [e]) p2 EQ' _ W4 H4)|apply (IH (p1 ++ [e]) _ EQ' W4 H4)].
      - intros x [<-|I]; [exact Is|]. apply in_map_iff in I. destruct I as (e & <- & I). apply in_split in I. destruct I as (a & b & ->).
        destruct (walk_split a s (e :: b) v W) as (z & _ & W2). inversion W2; subst. apply (proj2 PG z e). assumption. }
    destruct X as [X1 X2]. pose proof (NoDup_incl_length X1 X2) as L. cbn [length] in L. rewrite map_length in L. lia.
  Qed.
  Lemma unit_weight p : weight (fun _ : E => 1%Z) p = Z.of_nat (length p).
  Proof. induction p as [|e p IH]; [reflexivity|]. cbn [weight fold_right length]. fold (weight (fun _ : E => 1%Z) p). lia. Qed.

  (** C129, breadth_first_search and dijkstra_shortest_paths: when every edge weighs 1 and infty is at least the number of
      vertices, the search discovers exactly the vertices at a finite distance, in the order of their distances, a tree
      edge adds 1 to the distance, and the distance is the least number of edges from the source. *)
  Theorem C129_bfs_dijkstra s compare_arg absorbing infty fuel dist : In s V ->
    compare_arg = None \/ compare_arg = Some Less -> (0 < infty <= absorbing)%Z -> (Z.of_nat (length V) <= infty)%Z -> length V <= fuel ->
    exists st t c',
    dijkstra_shortest_paths V out tgt (fun _ => Ok 1%Z) compare_arg (closed_plus absorbing) 0%Z infty no_stop fuel s dist [] [] = Some (st, Done) /\
    bfs_calls out tgt all_edges [s] [] t c' /\
    (forall v, In v V -> (In v (discovered t) <-> exists d, dget (d_dist st) v = Some d /\ (d < infty)%Z)) /\
    StronglySorted Z.le (map (fun v => match dget (d_dist st) v with Some d => d | None => infty end) (discovered t)) /\
    (forall e, In e (tree_edges t) -> exists d, dget (d_dist st) (src e) = Some d /\ dget (d_dist st) (tgt e) = Some (d + 1)%Z) /\
    (forall v, In v (discovered t) -> In v V /\ exists n, distance out tgt all_edges [s] v n /\ dget (d_dist st) v = Some (Z.of_nat n)).
  Proof.
    intros Is HC HI HB HF.
    destruct (C51_distances V out src tgt (fun _ => Ok 1%Z) (fun _ => 1%Z) compare_arg absorbing infty s HC HI Is) with (fuel := fuel) (dist := dist) as (st & RUN & DI).
    { intros u e _ I. destruct (proj2 PG u e I) as (A & _ & B). split; [exact A|]. split; [exact B|]. split; [reflexivity|lia]. }
    { exact HF. }
    destruct (C37_breadth_first_search_graph out tgt src all_edges plain_finite [s] []) as (t & c' & P & H1 & H2 & _ & (rest & HD & _ & HT) & (dp & H5 & H6 & H7) & _ & _).
    { constructor; [intros []|constructor]. }
    { reflexivity. }
    specialize (H7 plain_source).
    assert (DV : forall v, In v (discovered t) -> In v V).
    { intros v I. apply H2 in I. destruct I as (x & [<-|[]] & S). apply steps_walk in S. destruct S as (n & S). apply walk_edges in S. destruct S as (p & W & _). apply (walk_in_V s p v W Is). }
    assert (K : forall v, In v (discovered t) -> dget (d_dist st) v = Some (Z.of_nat (dp v)) /\ dp v < length V).
    { intros v I. destruct (H5 v I) as ((x & [<-|[]] & W) & MIN). apply walk_edges in W. destruct W as (p & W & L).
      assert (SH : dp v < length V). { rewrite <- L. apply (short_walk s v p Is W). intros q Q. rewrite L. apply (MIN s); [left; reflexivity|]. apply walk_edges. exists q. auto. }
      split; [|exact SH]. destruct (DI v (DV v I)) as (d & Ed & [(Ld & q & (Q & QM) & Qw)|(Ld & LB)]).
      - rewrite Ed. f_equal. rewrite unit_weight in Qw. subst d. assert (dp v <= length q) by (apply (MIN s); [left; reflexivity|apply walk_edges; exists q; auto]).
        specialize (QM p W). rewrite !unit_weight in QM. lia.
      - exfalso. specialize (LB p W). rewrite unit_weight in LB. lia. }
    exists st, t, c'. split; [exact RUN|]. split; [exact P|]. split; [|split; [|split]].
    - intros v Iv. split.
      + intros I. destruct (K v I) as [A B]. exists (Z.of_nat (dp v)). split; [exact A|lia].
      + intros (d & Ed & Ld). destruct (DI v Iv) as (d' & Ed' & [(_ & q & (Q & _) & _)|(X & _)]); [|rewrite Ed in Ed'; injection Ed' as ->; lia].
        apply H2. exists s. split; [left; reflexivity|]. eapply walk_steps. apply walk_edges. exists q. split; [exact Q|reflexivity].
    - assert (G : forall l, incl l (discovered t) -> StronglySorted le (map dp l) -> StronglySorted Z.le (map (fun v => match dget (d_dist st) v with Some d => d | None => infty end) l)).
      { induction l as [|v l IH]; intros I S; [constructor|]. cbn [map] in *. inversion S; subst. constructor; [apply IH; [intros x X; apply I; right; exact X|assumption]|].
        apply Forall_forall. intros d D. apply in_map_iff in D. destruct D as (x & <- & D). rewrite (proj1 (K v (I v (or_introl eq_refl)))), (proj1 (K x (I x (or_intror D)))).
        apply inj_le. rewrite Forall_forall in H4. apply H4, in_map, D. }
      apply G; [apply incl_refl|exact H6].
    - intros e I. destruct (H7 e I) as [A B]. exists (Z.of_nat (dp (src e))). split; [apply (K _ A)|].
      assert (C : In (tgt e) (discovered t)) by (rewrite HD; apply in_or_app; right; rewrite HT; apply in_map, I).
      rewrite (proj1 (K _ C)), B. f_equal. lia.
    - intros v I. split; [apply DV, I|]. exists (dp v). split; [apply H5, I|apply (K v I)].
  Qed.
End Cross.

(** ** A graph and its reverse (reverse.py:10-27) *)
Section Reverse.
  Context {E : Type} {EE : EqDec E}.
  Variable g : api E.
  Hypothesis TW : two_way_graph g.
  Notation V := (api_vertices g).
  Notation r := (reverse_graph g).

  Lemma reverse_two_way : two_way_graph r.
  Proof.
    destruct TW as [[ND PG] IN]. split; [split; [exact ND|]|].
    - intros u e I. cbn in I |- *. apply IN in I. destruct I as [I <-]. destruct (PG _ e I) as (_ & A & B). auto.
    - intros v e. cbn. split.
      + intros I. destruct (PG v e I) as (<- & _ & _). split; [|reflexivity]. apply IN. auto.
      + intros [I <-]. apply IN in I. apply I.
  Qed.
  Lemma reverse_one u v : arc (api_out_edges r) (api_target r) u v -> arc (api_out_edges g) (api_target g) v u.
  Proof. intros (e & I & <-). cbn in I |- *. apply (proj2 TW) in I. destruct I as [I <-]. exists e. auto. Qed.
  Lemma reverse_step u v : arc (api_out_edges g) (api_target g) v u -> arc (api_out_edges r) (api_target r) u v.
  Proof. intros (e & I & <-). destruct (proj2 (proj1 TW) v e I) as (<- & _ & _). exists e. cbn. split; [|reflexivity]. apply (proj2 TW). auto. Qed.
  Lemma steps_flip (R R' : nat -> nat -> Prop) : (forall u v, R u v -> R' v u) -> forall u v, steps R u v -> steps R' v u.
  Proof. intros H u v. induction 1 as [u|u y v A S IH]; [constructor|]. apply (steps_trans _ v y u IH), steps_one, H, A. Qed.
  Lemma reverse_connected u v : connected (api_out_edges r) (api_target r) u v <-> connected (api_out_edges g) (api_target g) u v.
  Proof.
    unfold connected. split; intros [A B]; split.
    - exact (steps_flip _ _ reverse_one _ _ B).
    - exact (steps_flip _ _ reverse_one _ _ A).
    - exact (steps_flip _ _ (fun u v => reverse_step v u) _ _ B).
    - exact (steps_flip _ _ (fun u v => reverse_step v u) _ _ A).
  Qed.
  Lemma reverse_cycle v : plus (arc (api_out_edges r) (api_target r)) v v <-> plus (arc (api_out_edges g) (api_target g)) v v.
  Proof.
    split; intros (y & A & S).
    - eapply steps_back; [exact (steps_flip _ _ reverse_one _ _ S)|apply reverse_one, A].
    - eapply steps_back; [exact (steps_flip _ _ (fun u v => reverse_step v u) _ _ S)|apply reverse_step, A].
  Qed.

  (** strong_components finds the same components on the reverse *)
  Theorem C129_reverse_strong : exists comp comp' total bound,
    (forall fuel, bound <= fuel -> strong_components_of g fuel = Some (Ok (comp, total)) /\ strong_components_of r fuel = Some (Ok (comp', total))) /\
    (forall u v, In u V -> In v V -> (comp u = comp v <-> comp' u = comp' v)) /\
    (forall u v ku kv ku' kv', arc (api_out_edges g) (api_target g) u v -> comp u = Some ku -> comp v = Some kv -> comp' u = Some ku' -> comp' v = Some kv' ->
       kv <= ku /\ ku' <= kv').
  Proof.
    destruct (plain_strong g (proj1 TW)) as (comp & total & b & S1 & S2 & S3 & S4 & S5). destruct (plain_strong r (proj1 reverse_two_way)) as (comp' & total' & b' & T1 & T2 & T3 & T4 & T5).
    assert (Q : forall u v, In u V -> In v V -> (comp u = comp v <-> comp' u = comp' v)).
    { intros u v A B. rewrite (S4 u v A B), (T4 u v A B). symmetry. apply reverse_connected. }
    assert (EQ : total' = total).
    { apply Nat.le_antisymm; [apply (count_le comp' comp total' total V T3 S2)|apply (count_le comp comp' total total' V S3 T2)]; intros u v A B; apply Q; assumption. }
    subst total'. exists comp, comp', total, (max b b'). split; [intros fuel L; split; [apply S1|apply T1]; lia|]. split; [exact Q|].
    intros u v ku kv ku' kv' A Ku Kv Ku' Kv'. assert (IU : In u V /\ In v V) by (destruct A as (e & I & <-); destruct (proj2 (proj1 TW) u e I); tauto).
    split; [apply (S5 u v); tauto|]. apply (T5 v u); [apply IU|apply reverse_step, A|exact Kv'|exact Ku'].
  Qed.
  (** topological_sort succeeds on both or on none *)
  Theorem C129_reverse_topological : exists x y bound,
    (forall fuel, bound <= fuel -> topological_sort_of g fuel = Some x /\ topological_sort_of r fuel = Some y) /\
    (x = Raise RuntimeError /\ y = Raise RuntimeError \/
     exists l l', x = Ok l /\ y = Ok l' /\ Permutation l V /\ Permutation l' V /\ forall u e, In e (api_out_edges g u) -> before l u (api_target g e) /\ before l' (api_target g e) u).
  Proof.
    destruct (plain_topo g (proj1 TW)) as (x & b & S1 & S0 & S2 & S3). destruct (plain_topo r (proj1 reverse_two_way)) as (y & b' & T1 & T0 & T2 & T3).
    assert (Q : (exists l, x = Ok l) <-> (exists l, y = Ok l)).
    { rewrite S2, T2. split; intros H v I C; apply (H v I), reverse_cycle, C. }
    exists x, y, (max b b'). split; [intros fuel L; split; [apply S1|apply T1]; lia|].
    destruct S0 as [->|(l & ->)], T0 as [->|(l' & ->)].
    - left. auto.
    - destruct (proj2 Q) as (l & X); [exists l'; reflexivity|discriminate].
    - destruct (proj1 Q) as (l' & X); [exists l; reflexivity|discriminate].
    - right. exists l, l'. destruct (S3 l eq_refl) as [A1 A2], (T3 l' eq_refl) as [B1 B2]. split; [reflexivity|]. split; [reflexivity|]. split; [exact A1|]. split; [exact B1|].
      intros u e I. assert (Ar : arc (api_out_edges g) (api_target g) u (api_target g e)) by (exists e; auto). split; [apply A2, Ar|apply B2, reverse_step, Ar].
  Qed.

  Lemma reverse_walk s p t : walk_of (api_out_edges g) (api_target g) s p t -> walk_of (api_out_edges r) (api_target r) t (rev p) s.
  Proof.
    induction 1 as [s|s e p t I W IH]; [constructor|]. cbn [rev]. destruct (proj2 (proj1 TW) s e I) as (<- & _ & _).
    apply (walk_app r _ _ (api_target g e)); [exact IH|]. change (api_source g e) with (api_target r e). constructor; [cbn; apply (proj2 TW); auto|constructor].
  Qed.
  Lemma weight_rev w (p : list E) : weight w (rev p) = weight w p.
  Proof.
    assert (A : forall p q, weight w (p ++ q) = (weight w p + weight w q)%Z).
    { induction p0 as [|e p0 IH]; intros q; [reflexivity|]. cbn [app weight fold_right]. fold (weight w (p0 ++ q)) (weight w p0). rewrite IH. lia. }
    induction p as [|e p IH]; [reflexivity|]. cbn [rev]. rewrite A, IH. cbn [weight fold_right]. fold (weight w p). lia.
  Qed.
End Reverse.
Section Reverse2.
  Context {E : Type} {EE : EqDec E}.
  Variable g : api E.
  Hypothesis TW : two_way_graph g.
  Notation V := (api_vertices g).
  Notation r := (reverse_graph g).
  Lemma walk_back s p t : walk_of (api_out_edges r) (api_target r) t p s -> walk_of (api_out_edges g) (api_target g) s (rev p) t.
  Proof. exact (reverse_walk r (reverse_two_way g TW) t p s). Qed.

  (** the distance from s to t in the graph is the distance from t to s in its reverse *)
  Theorem C129_reverse_dijkstra pmap w s t compare_arg absorbing infty fuel dist dist' : In s V -> In t V ->
    (forall e, In e (api_out_edges g (api_source g e)) -> pmap e = Ok (w e) /\ (0 <= w e)%Z) ->
    compare_arg = None \/ compare_arg = Some Less -> (0 < infty <= absorbing)%Z -> length V <= fuel ->
    exists st st' d,
    dijkstra_shortest_paths V (api_out_edges g) (api_target g) pmap compare_arg (closed_plus absorbing) 0%Z infty no_stop fuel s dist [] [] = Some (st, Done) /\
    dijkstra_shortest_paths V (api_out_edges r) (api_target r) pmap compare_arg (closed_plus absorbing) 0%Z infty no_stop fuel t dist' [] [] = Some (st', Done) /\
    dget (d_dist st) t = Some d /\ dget (d_dist st') s = Some d.
  Proof.
    intros Is It HW HC HI HF. pose proof (reverse_two_way g TW) as TR.
    destruct (C51_distances V (api_out_edges g) (api_source g) (api_target g) pmap w compare_arg absorbing infty s HC HI Is) with (fuel := fuel) (dist := dist) as (st & RUN & DI); [|exact HF|].
    { intros u e _ I. destruct (proj2 (proj1 TW) u e I) as (A & _ & B). split; [exact A|]. split; [exact B|]. apply HW. rewrite A. exact I. }
    destruct (C51_distances V (api_out_edges r) (api_source r) (api_target r) pmap w compare_arg absorbing infty t HC HI It) with (fuel := fuel) (dist := dist') as (st' & RUN' & DI'); [|exact HF|].
    { intros u e _ I. destruct (proj2 (proj1 TR) u e I) as (A & _ & B). split; [exact A|]. split; [exact B|]. apply HW. cbn in I. apply (proj2 TW) in I. apply I. }
    destruct (DI t It) as (d & D1 & D2). destruct (DI' s Is) as (d' & D1' & D2'). exists st, st', d. split; [exact RUN|]. split; [exact RUN'|]. split; [exact D1|]. rewrite D1'. f_equal.
    destruct D2 as [(L & p & (P & PM) & PW)|(L & LB)]; destruct D2' as [(L' & p' & (P' & PM') & PW')|(L' & LB')].
    - pose proof (PM _ (walk_back _ _ _ P')) as A. pose proof (PM' _ (reverse_walk g TW _ _ _ P)) as B. rewrite weight_rev in A, B. lia.
    - exfalso. pose proof (LB' _ (reverse_walk g TW _ _ _ P)) as B. rewrite weight_rev in B. lia.
    - exfalso. pose proof (LB _ (walk_back _ _ _ P')) as B. rewrite weight_rev in B. lia.
    - congruence.
  Qed.
End Reverse2.

(** ** The classes of graph.py meet these hypotheses *)
Theorem C129_graphs n ops :
  (let g := fst (run DG_call (G_init n) ops) in (forall u e, In e (G_out_edges g u) -> In (target e) (G_vertices g)) -> plain_graph (DG_api g)) /\
  (closed_prog u_step (a_init n) ops -> plain_graph (UG_api (fst (run UG_call (G_init n) ops)))) /\
  (closed_prog i_step (a_init n) ops -> two_way_graph (IG_api (fst (run IG_call (IG_init n) ops)))).
Proof.
  assert (KEY : forall g u e, In e (G_out_edges g u) -> In u (G_vertices g)).
  { intros g u e. unfold G_out_edges. destruct (dget (adjacencies g) u) as [d|] eqn:D; [|intros []]. intros _. apply (dget_Some_key _ _ _ D). }
  split; [|split].
  - intros g CL. split; [apply (DG_wf n ops)|]. intros u e I. split; [apply (G_source g u e I)|]. split; [apply (KEY g u e I)|apply (CL u e I)].
  - intros CP. pose proof (undirected_symmetric n ops CP) as S. pose proof (UG_wf n ops CP) as W. cbv zeta in S. destruct S as (_ & _ & SY & _).
    split; [apply W|]. intros u e I. cbn in I |- *. pose proof (G_source _ u e I) as Su. split; [exact Su|]. split; [apply (KEY _ u e I)|].
    destruct e as [a b k]. cbn [source target] in *. subst a. apply SY in I. apply (KEY _ b _ I).
  - intros CP. destruct (incidence_run n ops CP) as ((R & _) & _). set (g := fst (run IG_call (IG_init n) ops)) in *. set (a := fst (run i_step (a_init n) ops)) in *.
    assert (OUT : forall u e, In e (IG_out_edges g u) <-> source e = u /\ In e (es a)).
    { intros u e. rewrite (Permutation_in' eq_refl (drep_out _ _ _ u (ir_d _ _ _ R))). unfold a_out. rewrite filter_In, Nat.eqb_eq. tauto. }
    assert (IN : forall u e, In e (IG_in_edges g u) <-> target e = u /\ In e (es a)).
    { intros u e. rewrite (Permutation_in' eq_refl (irep_in _ _ _ u R)). unfold a_in. rewrite filter_In, Nat.eqb_eq. tauto. }
    assert (KI : forall v e, In e (IG_in_edges g v) -> In v (IG_vertices g)).
    { intros v e. unfold IG_in_edges. destruct (dget (in_adjacencies g) v) as [d|] eqn:D; [|intros []]. intros _. apply dget_Some_key in D.
      rewrite (ir_keys _ _ _ R), <- (dr_keys _ _ _ (ir_d _ _ _ R)) in D. exact D. }
    split; [split|].
    + apply (dr_wf _ _ _ (ir_d _ _ _ R)).
    + intros u e I. cbn in I |- *. pose proof (KEY _ _ _ I) as K. apply OUT in I. split; [apply I|]. split; [exact K|]. apply (KI _ e). apply IN. tauto.
    + intros v e. cbn. rewrite IN, OUT. tauto.
Qed.

(** An incidence graph with two components {0, 1, 2} and {3}, its reverse, and an acyclic graph. *)
Example C129_example :
  let ops := [OpAddEdge 0 1; OpAddEdge 1 2; OpAddEdge 2 0; OpAddEdge 2 3; OpAddEdge 0 3] in
  let g := IG_api (fst (run IG_call (IG_init 4) ops)) in
  closed_prog i_step (a_init 4) ops /\
  (match strong_components_of g 60 with Some (Ok (comp, total)) => (map comp (api_vertices g), total) = ([Some 1; Some 1; Some 1; Some 0], 2) | _ => False end) /\
  (match strong_components_of (reverse_graph g) 60 with Some (Ok (comp, total)) => (map comp (api_vertices g), total) = ([Some 0; Some 0; Some 0; Some 1], 2) | _ => False end) /\
  topological_sort_of g 60 = Some (Raise RuntimeError) /\ topological_sort_of (reverse_graph g) 60 = Some (Raise RuntimeError) /\
  (let a := IG_api (fst (run IG_call (IG_init 4) [OpAddEdge 0 1; OpAddEdge 0 2; OpAddEdge 1 3; OpAddEdge 2 3])) in
   topological_sort_of a 60 = Some (Ok [0; 2; 1; 3]) /\ topological_sort_of (reverse_graph a) 60 = Some (Ok [3; 2; 1; 0])).
Proof. split; [cbn; intuition|]. split; [vm_compute; reflexivity|]. split; [vm_compute; reflexivity|]. split; [vm_compute; reflexivity|]. split; [vm_compute; reflexivity|]. split; vm_compute; reflexivity. Qed.
(** Distances with weights 1: vertex 4 is not reached; and a weight depending on the edge, from 1 to 3 in the graph and from 3 to 1 in the reverse. *)
Example C129_distances :
  let ops := [OpAddEdge 0 1; OpAddEdge 1 2; OpAddEdge 2 0; OpAddEdge 2 3; OpAddEdge 0 3; OpAddEdge 4 0] in
  let g := IG_api (fst (run IG_call (IG_init 5) ops)) in
  let r := reverse_graph g in
  let weight_of e := Ok (Z.of_nat (3 + source e - target e)) in
  closed_prog i_step (a_init 5) ops /\
  (match dijkstra_shortest_paths (api_vertices g) (api_out_edges g) (api_target g) (fun _ => Ok 1%Z) None (closed_plus 100) 0%Z 100%Z no_stop 5 0 [] [] [] with
   | Some (st, Done) => map (fun v => dget (d_dist st) v) [0; 1; 2; 3; 4] = [Some 0%Z; Some 1%Z; Some 2%Z; Some 1%Z; Some 100%Z] | _ => False end) /\
  (match dijkstra_shortest_paths (api_vertices g) (api_out_edges g) (api_target g) weight_of None (closed_plus 100) 0%Z 100%Z no_stop 5 1 [] [] [],
         dijkstra_shortest_paths (api_vertices r) (api_out_edges r) (api_target r) weight_of None (closed_plus 100) 0%Z 100%Z no_stop 5 3 [] [] [] with
   | Some (st, Done), Some (st', Done) => dget (d_dist st) 3 = Some 4%Z /\ dget (d_dist st') 1 = Some 4%Z | _, _ => False end).
Proof. split; [cbn; intuition|]. split; [vm_compute; reflexivity|]. vm_compute. split; reflexivity. Qed.
Print Assumptions C129_topological_strong.
Print Assumptions C129_bfs_dijkstra.
Print Assumptions C129_reverse_strong.
Print Assumptions C129_reverse_topological.
Print Assumptions C129_reverse_dijkstra.
Print Assumptions C129_graphs.
