(** Theorems C82 and C83 on dijkstra_shortest_paths with any comparison and combination of the weights. *)
From Coq Require Import Sorted.
From Verif Require Import Graph Search Heap HeapProofs Dijkstra DijkstraSpec DijkstraGenSpec DijkstraProofs DijkstraGenProofs Base BaseProofs.

Section T.
  Context {E D : Type} {EE : EqDec E} {ED : EqDec D} {LD : Distance D}.
  Variables (V : list nat) (out_edges : nat -> list E) (source target : E -> nat) (pmap_eweight : E -> res D) (w : E -> D).
  Variables (lt : D -> D -> bool) (compare_arg : option (D -> D -> bool)) (combine : D -> D -> D).
  Variables (zero infty : D) (s : nat).
  Hypothesis H_rank : ranking lt.
  (** the argument compare, or the operator [<] of the distances *)
  Hypothesis H_compare : compare_arg = None /\ d_lt = lt \/ compare_arg = Some lt.
  Hypothesis H_infty : lt zero infty = true.
  Hypothesis H_source : In s V.
  Hypothesis H_graph : ranked_graph lt combine zero infty out_edges target w V source pmap_eweight.
  Local Notation run fuel dist := (dijkstra_shortest_paths V out_edges target pmap_eweight compare_arg combine zero infty no_stop fuel s dist [] []).
  Local Notation INV := (inv V out_edges source target w lt combine zero infty s).
  Local Notation dist_of st v := (key_of (d_dist st) v).

  Lemma done_run fuel dist : (length V <= fuel)%nat -> exists st S P, run fuel dist = Some (st, Done) /\ INV S P st /\ full out_edges S P /\ hp_data (d_heap st) = [].
  Proof.
    intros F. destruct (dijkstra_spec V out_edges source target pmap_eweight w lt compare_arg combine zero infty no_stop s H_rank H_compare H_infty H_source H_graph ltac:(discriminate) fuel dist F) as (st & S & P & I & [(E1 & E2 & E3 & _)|(_ & u & _ & N & _)]); [|discriminate].
    exists st, S, P. auto.
  Qed.
  Lemma done_inv fuel dist st : (length V <= fuel)%nat -> run fuel dist = Some (st, Done) -> exists S P, INV S P st /\ full out_edges S P /\ hp_data (d_heap st) = [].
  Proof. intros F R. destruct (done_run fuel dist F) as (st' & S & P & R' & I). rewrite R in R'. injection R' as <-. eauto. Qed.
  Lemma dist_eq S P st v d : INV S P st -> In v V -> dget (d_dist st) v = Some d <-> dist_of st v = d.
  Proof. intros I Vv. destruct (i_def _ _ _ _ _ _ _ _ _ _ _ _ _ I v Vv) as [d' E']. unfold key_of. rewrite E'. split; congruence. Qed.

  (** C82: the distances *)
  Theorem C82_distances fuel dist : (length V <= fuel)%nat -> exists st, run fuel dist = Some (st, Done) /\
    forall v, In v V -> exists d, dget (d_dist st) v = Some d /\ best_cost_is lt combine zero infty out_edges target w s v d.
  Proof.
    intros F. destruct (done_run fuel dist F) as (st & S & P & R & I & FULL & HE). exists st. split; [exact R|]. intros v Vv. exists (dist_of st v). split; [apply (dist_eq S P); [exact I|exact Vv|reflexivity]|].
    apply (final_distance V out_edges source target pmap_eweight w lt combine zero infty s H_rank H_infty H_source H_graph S P st I FULL HE v Vv).
  Qed.
  (** the predecessors: the edges that yield the distance from a vertex better than infty *)
  Theorem C82_predecessors fuel dist st : (length V <= fuel)%nat -> run fuel dist = Some (st, Done) ->
    forall v d_v, In v V -> dget (d_dist st) v = Some d_v -> NoDup (preds_of (d_preds st) v) /\ forall e, In e (preds_of (d_preds st) v) <->
      exists u d_u, In u V /\ dget (d_dist st) u = Some d_u /\ lt d_u infty = true /\ In e (out_edges u) /\ target e = v /\ combine d_u (w e) = d_v.
  Proof.
    intros F R v d_v Vv Ev. destruct (done_inv fuel dist st F R) as (S & P & I & FULL & HE). split; [apply (i_pn _ _ _ _ _ _ _ _ _ _ _ _ _ I)|]. intros e. apply (dist_eq S P st v d_v I Vv) in Ev. split.
    - intros J. destruct (pred_tight V out_edges source target w lt combine zero infty s S P st v e I J) as (H1 & H2 & H3 & H4 & H5). exists (source e), (dist_of st (source e)). rewrite Ev in H4.
      repeat split; try assumption. apply (dist_eq S P); auto.
    - intros (u & d_u & Vu & Eu & Fu & Ie & Et & C). apply (dist_eq S P st u d_u I Vu) in Eu. destruct (H_graph u e Vu Ie) as (Es & _). apply (i_preds _ _ _ _ _ _ _ _ _ _ _ _ _ I).
      split; [apply (FULL u e); [apply (final_S V out_edges source target w lt combine zero infty s S P st I HE); subst d_u; auto|exact Ie]|]. split; [exact Et|]. rewrite Es, Eu, Ev. exact C.
  Qed.
  (** the vertices are examined in the order of the ranking, each one once, and exactly those better than infty *)
  Theorem C82_order fuel dist st : (length V <= fuel)%nat -> run fuel dist = Some (st, Done) ->
    let examined := flat_map (fun x => match x with DExamine v => [v] | _ => [] end) (d_log st) in
    NoDup examined /\ (forall v, In v examined <-> In v V /\ exists p, walk_of out_edges target s p v /\ lt (cost combine zero w p) infty = true) /\
    StronglySorted (fun x y => forall d d', dget (d_dist st) x = Some d -> dget (d_dist st) y = Some d' -> lt d' d = false) examined.
  Proof.
    intros F R. destruct (done_inv fuel dist st F R) as (S & P & I & FULL & HE). cbv zeta. pose proof (i_log _ _ _ _ _ _ _ _ _ _ _ _ _ I) as L. unfold examined_vertices in L. rewrite L.
    split; [apply (i_Sn _ _ _ _ _ _ _ _ _ _ _ _ _ I)|]. split.
    - intros v. rewrite (final_S V out_edges source target w lt combine zero infty s S P st I HE v). split; intros [Vv H]; (split; [exact Vv|]).
      + destruct (i_walk _ _ _ _ _ _ _ _ _ _ _ _ _ I v Vv H) as (p & Wp & Ep). exists p. split; [exact Wp|]. unfold cost. rewrite Ep. exact H.
      + destruct H as (p & Wp & Lp). pose proof (proj1 (final_lower V out_edges source target pmap_eweight w lt combine zero infty s H_rank H_infty H_source H_graph S P st I FULL HE v p Wp)) as Q.
        apply (DijkstraGenProofs.le_lt_trans lt H_rank _ _ _ Q Lp).
    - pose proof (i_sorted _ _ _ _ _ _ _ _ _ _ _ _ _ I) as SS. clear -SS. induction SS as [|a l SS IH FA]; [constructor|]. constructor; [exact IH|]. revert FA. apply Forall_impl. intros b Hb d d' Ed Ed'. unfold key_of in Hb. rewrite Ed, Ed' in Hb. exact Hb.
  Qed.

  (** C83, when going around a cycle is strictly worse: make_shortest_path returns a best path... *)
  Theorem C83_make_shortest_path fuel dist st fuel' ord t d : (length V <= fuel)%nat -> run fuel dist = Some (st, Done) ->
    valid_order ord -> worsening_cycles lt combine zero infty out_edges target w V -> (length V <= fuel')%nat -> In t V -> dget (d_dist st) t = Some d -> lt d infty = true ->
    exists p, make_shortest_path source fuel' ord s t (d_preds st) = Some (Ok p) /\ best lt combine zero out_edges target w s p t /\ cost combine zero w p = d.
  Proof.
    intros F R OV NZ F' Vt Et Ft. destruct (done_inv fuel dist st F R) as (S & P & I & FULL & HE). apply (dist_eq S P st t d I Vt) in Et. subst d.
    destruct (path_spec V out_edges source target w lt combine zero infty s H_rank S P st ord t I OV NZ fuel' t [] []) as (p & Q1 & Q2 & Q3); [exact Vt|exact Ft|constructor|apply tail_start; exact Vt|cbn; lia|].
    exists p. split; [exact Q1|]. split; [|exact Q3]. split; [exact Q2|]. intros q Wq. unfold cost. rewrite Q3. apply (final_lower V out_edges source target pmap_eweight w lt combine zero infty s H_rank H_infty H_source H_graph S P st I FULL HE t q Wq).
  Qed.
  (** ... and dijkstra_shortest_path returns a best path, or None exactly if no path is better than infty *)
  Theorem C83_dijkstra_shortest_path fuel ord t dist : (length V <= fuel)%nat -> valid_order ord -> worsening_cycles lt combine zero infty out_edges target w V ->
    exists r, dijkstra_shortest_path V out_edges source target pmap_eweight compare_arg combine zero infty fuel ord s t dist [] [] = Some (Ok r) /\
      (r = None <-> forall p, walk_of out_edges target s p t -> lt (cost combine zero w p) infty = false) /\
      forall p, r = Some p -> best lt combine zero out_edges target w s p t /\ lt (cost combine zero w p) infty = true.
  Proof.
    intros F OV NZ. unfold dijkstra_shortest_path.
    destruct (dijkstra_spec V out_edges source target pmap_eweight w lt compare_arg combine zero infty (towards t) s H_rank H_compare H_infty H_source H_graph) with (fuel := fuel) (dist := dist) as (st & S & P & I & [(R & FULL & HE & Q)|(R & u & Vu & N & Fu & LW)]); [|exact F| |].
    - intros [ | | | | | | ]; cbn; try discriminate. eauto.
    - rewrite R. exists None. split; [reflexivity|]. split; [|discriminate]. split; [|reflexivity]. intros _ p Wp.
      destruct (final_lower V out_edges source target pmap_eweight w lt combine zero infty s H_rank H_infty H_source H_graph S P st I FULL HE t p Wp) as [L Vt].
      destruct (lt (cost combine zero w p) infty) eqn:Ft; [|reflexivity]. exfalso. assert (J : In t S) by (apply (final_S V out_edges source target w lt combine zero infty s S P st I HE); split; [exact Vt|apply (DijkstraGenProofs.le_lt_trans lt H_rank _ _ _ L Ft)]). specialize (Q t J). cbn in Q. rewrite Nat.eqb_refl in Q. discriminate.
    - cbn in N. apply Nat.eqb_eq in N. subst u. rewrite R. unfold make_shortest_path.
      destruct (path_spec V out_edges source target w lt combine zero infty s H_rank S P st ord t I OV NZ fuel t [] []) as (p & Q1 & Q2 & Q3); [exact Vu|exact Fu|constructor|apply tail_start; exact Vu|cbn; lia|].
      rewrite Q1. cbn in Q3. fold (cost combine zero w p) in Q3. exists (Some p). split; [reflexivity|]. split.
      + split; [discriminate|]. intros H. specialize (H p Q2). rewrite Q3 in H. congruence.
      + intros p' [= <-]. rewrite Q3. split; [|exact Fu]. split; [exact Q2|]. intros q Wq. rewrite Q3. apply LW, Wq.
  Qed.
End T.
Print Assumptions C82_distances. Print Assumptions C82_predecessors. Print Assumptions C82_order. Print Assumptions C83_make_shortest_path. Print Assumptions C83_dijkstra_shortest_path.

(** ** The widest paths: GreaterThan(), ClosedMin(), zero=INFINITY, infty=0, as in tests/test_dijkstra_shortest_path.py:393-412 *)
Open Scope Z_scope.
(** the width of a path: the least of the capacities of its edges, at most [top] *)
Definition width {E} (w : E -> Z) (top : Z) (p : list E) : Z := fold_right (fun e k => Z.min (w e) k) top p.
Lemma greater_ranking : ranking GreaterThan.
Proof. unfold GreaterThan. constructor; intros; rewrite Z.gtb_ltb in *; rewrite ?Z.ltb_lt, ?Z.ltb_ge in *; lia. Qed.
Lemma min_weight top x : a_weight GreaterThan (closed_min 0) top 0 x.
Proof.
  unfold GreaterThan, closed_min. constructor; intros *; rewrite !Z.gtb_ltb, ?Z.ltb_lt, ?Z.ltb_ge; intros;
    repeat match goal with |- context [Z.eqb ?a ?b] => destruct (Z.eqb_spec a b); cbn [orb] end; lia.
Qed.
Lemma cost_width {E} (w : E -> Z) : forall p top, (forall e, In e p -> 0 <= w e) -> 0 <= top -> cost (closed_min 0) top w p = width w top p.
Proof.
  unfold cost, cost_from. intros p. induction p as [|e p IH] using rev_ind; intros top N T; [reflexivity|]. rewrite fold_left_app. cbn. rewrite IH; [|intros; apply N, in_app_iff; auto|exact T].
  assert (G : forall l k, width w k (l ++ [e]) = Z.min (width w k l) (w e)) by (induction l as [|a l IHl]; intros k; cbn; [lia|]; unfold width in *; rewrite IHl; lia). rewrite G.
  assert (0 <= width w top p). { assert (N' : forall e, In e p -> 0 <= w e) by (intros; apply N, in_app_iff; auto). clear -N' T. induction p as [|a p IH]; cbn; [exact T|]. pose proof (N' a (or_introl eq_refl)). unfold width in *. specialize (IH (fun e J => N' e (or_intror J))). lia. }
  pose proof (N e ltac:(apply in_app_iff; cbn; auto)). unfold closed_min. destruct (Z.eqb_spec (width w top p) 0), (Z.eqb_spec (w e) 0); cbn [orb]; lia.
Qed.
Lemma walk_edges {E} (V : list nat) (out_edges : nat -> list E) (target : E -> nat) (Q : E -> Prop) : (forall u e, In u V -> In e (out_edges u) -> In (target e) V /\ Q e) ->
  forall u p v, walk_of out_edges target u p v -> In u V -> forall e, In e p -> Q e.
Proof. intros H. induction 1 as [|u e p v I W IH]; intros Vu e0; [intros []|]. destruct (H u e Vu I) as [Ht Qe]. intros [<-|J]; [exact Qe|apply (IH Ht e0 J)]. Qed.
Theorem C82_widest_paths {E} {EE : EqDec E} (V : list nat) (out_edges : nat -> list E) (source target : E -> nat) (pmap : E -> res Z) (w : E -> Z) top s fuel dist : 0 < top -> In s V ->
  weighted_graph V out_edges source target pmap w -> (length V <= fuel)%nat ->
  exists st, dijkstra_shortest_paths V out_edges target pmap (Some GreaterThan) (closed_min 0) top 0 no_stop fuel s dist [] [] = Some (st, Done) /\
  forall v, In v V -> exists d, dget (d_dist st) v = Some d /\ (forall p, walk_of out_edges target s p v -> width w top p <= d) /\
    (d = 0 \/ 0 < d /\ exists p, walk_of out_edges target s p v /\ width w top p = d).
Proof.
  intros HT Hs HG F.
  destruct (C82_distances V out_edges source target pmap w GreaterThan (Some GreaterThan) (closed_min 0) top 0 s) with (fuel := fuel) (dist := dist) as (st & R & H).
  - apply greater_ranking.
  - right. reflexivity.
  - unfold GreaterThan. rewrite Z.gtb_ltb. apply Z.ltb_lt, HT.
  - exact Hs.
  - intros u e Vu Ie. destruct (HG u e Vu Ie) as (H1 & H2 & H3 & H4). split; [exact H1|]. split; [exact H2|]. split; [exact H3|]. apply min_weight.
  - exact F.
  - assert (C : forall p v, walk_of out_edges target s p v -> cost (closed_min 0) top w p = width w top p).
    { intros p v Wp. apply cost_width; [|lia]. apply (walk_edges V out_edges target (fun e => 0 <= w e)) with (u := s) (v := v); [|exact Wp|exact Hs]. intros u e Vu Ie. destruct (HG u e Vu Ie) as (_ & H2 & _ & H4). auto. }
    exists st. split; [exact R|]. intros v Vv. destruct (H v Vv) as (d & Ed & B). exists d. split; [exact Ed|]. unfold GreaterThan in B. destruct B as [(B1 & p & [Wp B2] & Ep)|(-> & B)].
    + rewrite Z.gtb_ltb in B1. apply Z.ltb_lt in B1. rewrite (C p v Wp) in *. split; [|right; split; [exact B1|exists p; auto]]. intros q Wq. specialize (B2 q Wq). rewrite (C q v Wq), Z.gtb_ltb in B2. apply Z.ltb_ge in B2. lia.
    + split; [|left; reflexivity]. intros q Wq. specialize (B q Wq). rewrite (C q v Wq), Z.gtb_ltb in B. apply Z.ltb_ge in B. lia.
Qed.
Print Assumptions C82_widest_paths.

(** Example: capacities 0 -> 1 (5), 0 -> 2 (3), 1 -> 2 (4), 2 -> 3 (8), 3 -> 1 (9), and a vertex that is not reachable *)
Definition wp_edges : list (edge Z) := [Edge 0 1 5; Edge 0 2 3; Edge 1 2 4; Edge 2 3 8; Edge 3 1 9; Edge 4 0 1].
Definition wp_out (u : nat) : list (edge Z) := filter (fun e => Nat.eqb (Graph.source e) u) wp_edges.
Definition wp_V : list nat := [0; 1; 2; 3; 4]%nat.
Example wp_graph : weighted_graph wp_V wp_out Graph.source Graph.target (fun e => Ok (distinguisher e)) distinguisher.
Proof.
  intros u e _ I. apply filter_In in I. destruct I as [I S]. apply Nat.eqb_eq in S. split; [exact S|]. repeat (destruct I as [<-|I]; [cbn; split; [tauto|split; [reflexivity|lia]]|]). destruct I.
Qed.
Example C82_example : option_map (fun '(st, r) => (map (dget (d_dist st)) wp_V, map (preds_of (d_preds st)) wp_V, r))
    (dijkstra_shortest_paths wp_V wp_out Graph.target (fun e => Ok (distinguisher e)) (Some GreaterThan) (closed_min 0) 100 0 no_stop 5 0 [] [] [])
  = Some ([Some 100; Some 5; Some 4; Some 4; Some 0], [[]; [Edge 0 1 5]; [Edge 1 2 4]; [Edge 2 3 8]; []], Done).
Proof. vm_compute. reflexivity. Qed.

(** Example: distances that are pairs (length, number of edges), in the lexicographic order *)
Definition lex (a b : Z * Z) : bool := (fst a <? fst b) || (fst a =? fst b) && (snd a <? snd b).
Definition pair_plus (a b : Z * Z) : Z * Z := (fst a + fst b, snd a + snd b).
#[local] Instance Distance_pair : Distance (Z * Z) := {| d_lt := lex; a_distance := (0, 0) |}.
Lemma lex_true a b : lex a b = true <-> fst a < fst b \/ fst a = fst b /\ snd a < snd b.
Proof. unfold lex. rewrite Bool.orb_true_iff, Bool.andb_true_iff, !Z.ltb_lt, Z.eqb_eq. reflexivity. Qed.
Lemma lex_false a b : lex a b = false <-> ~ (fst a < fst b \/ fst a = fst b /\ snd a < snd b).
Proof. rewrite <- lex_true. destruct (lex a b); split; congruence. Qed.
Example lex_ranking : ranking lex.
Proof. constructor; intros *; rewrite ?lex_true, ?lex_false; lia. Qed.
(** 0 -> 1 -> 3 and 0 -> 2 -> 1 are as long as the direct edges 0 -> 3 and 0 -> 1; the cycle 1 -> 2 -> 1 has length 0 *)
Definition lx_edges : list (edge Z) := [Edge 0 1 2; Edge 0 2 2; Edge 2 1 0; Edge 1 2 0; Edge 1 3 4; Edge 0 3 6].
Definition lx_out (u : nat) : list (edge Z) := filter (fun e => Nat.eqb (Graph.source e) u) lx_edges.
Definition lx_V : list nat := [0; 1; 2; 3]%nat.
Definition lx_w (e : edge Z) : Z * Z := (distinguisher e, 1).
Example C82_example2 : ranking lex /\ lex (0, 0) (100, 0) = true /\ In 0%nat lx_V /\ ranked_graph lex pair_plus (0, 0) (100, 0) lx_out Graph.target lx_w lx_V Graph.source (fun e => Ok (lx_w e)) /\
  worsening_cycles lex pair_plus (0, 0) (100, 0) lx_out Graph.target lx_w lx_V.
Proof.
  assert (P : forall u e, In e (lx_out u) -> Graph.source e = u /\ In (Graph.target e) lx_V /\ 0 <= distinguisher e).
  { intros u e I. apply filter_In in I. destruct I as [I S]. apply Nat.eqb_eq in S. split; [exact S|]. repeat (destruct I as [<-|I]; [cbn; split; [tauto|lia]|]). destruct I. }
  split; [apply lex_ranking|]. split; [reflexivity|]. split; [left; reflexivity|]. split.
  - intros u e _ I. destruct (P u e I) as (H1 & H2 & H3). split; [exact H1|]. split; [exact H2|]. split; [reflexivity|]. constructor; intros *; rewrite ?lex_true, ?lex_false; cbn [fst snd pair_plus lx_w]; lia.
  - assert (G : forall u p v, walk_of lx_out Graph.target u p v -> forall a, fst a <= fst (cost_from pair_plus lx_w a p) /\ snd (cost_from pair_plus lx_w a p) = snd a + Z.of_nat (length p)).
    { induction 1 as [u|u e p v I W IH]; intros a; [cbn; lia|]. destruct (P u e I) as (_ & _ & H3). specialize (IH (pair_plus a (lx_w e))). cbn [fst snd pair_plus lx_w] in IH. cbn [length].
      change (cost_from pair_plus lx_w a (e :: p)) with (cost_from pair_plus lx_w (pair_plus a (lx_w e)) p). unfold lx_w, pair_plus in *. cbn [fst snd] in *. lia. }
    intros u p a _ W N _ _. apply lex_true. destruct (G u p u W a) as [G1 G2]. rewrite G2. destruct p as [|e p]; [contradiction|]. cbn [length]. lia.
Qed.
Example C83_example : option_map (fun '(st, r) => (map (dget (d_dist st)) lx_V, make_shortest_path Graph.source 4 (fun _ l => rev l) 0 1 (d_preds st)))
    (dijkstra_shortest_paths lx_V lx_out Graph.target (fun e => Ok (lx_w e)) (Some lex) pair_plus (0, 0) (100, 0) no_stop 4 0 [] [] [])
  = Some ([Some (0, 0); Some (2, 1); Some (2, 1); Some (6, 1)], Some (Ok [Edge 0 1 2])) /\
  dijkstra_shortest_path lx_V lx_out Graph.source Graph.target (fun e => Ok (lx_w e)) None pair_plus (0, 0) (100, 0) 4 (fun _ l => l) 0 3 [] [] [] = Some (Ok (Some [Edge 0 3 6])).
Proof. vm_compute. auto. Qed.

(** C83 is false of the widest paths: going around a cycle of large capacities does not make a path narrower. Then
    make_shortest_path, or dijkstra_shortest_path, may never end, depending on the order of the sets of edges. *)
Definition wc_edges : list (edge Z) := [Edge 0 1 5; Edge 1 2 9; Edge 2 1 9; Edge 2 3 2].
Definition wc_out (u : nat) : list (edge Z) := filter (fun e => Nat.eqb (Graph.source e) u) wc_edges.
Theorem C83_widest_path_refuted : exists (ord : set_order (edge Z)) st, valid_order ord /\
  weighted_graph lx_V wc_out Graph.source Graph.target (fun e => Ok (distinguisher e)) distinguisher /\
  dijkstra_shortest_paths lx_V wc_out Graph.target (fun e => Ok (distinguisher e)) (Some GreaterThan) (closed_min 0) 100 0 no_stop 4 0 [] [] [] = Some (st, Done) /\
  dget (d_dist st) 3%nat = Some 2 /\ (forall fuel, make_shortest_path Graph.source fuel ord 0 3 (d_preds st) = None) /\
  forall fuel, (4 <= fuel)%nat -> dijkstra_shortest_path lx_V wc_out Graph.source Graph.target (fun e => Ok (distinguisher e)) (Some GreaterThan) (closed_min 0) 100 0 fuel ord 0 3 [] [] [] = None.
Proof.
  assert (G : forall pr fuel acc, rev (preds_of pr 1) = [Edge 2%nat 1%nat 9; Edge 0%nat 1%nat 5] -> rev (preds_of pr 2) = [Edge 1%nat 2%nat 9] -> rev (preds_of pr 3) = [Edge 2%nat 3%nat 2] ->
    path_loop (@Graph.source Z) fuel (fun _ l => rev l) 0 1 pr acc = None /\ path_loop (@Graph.source Z) fuel (fun _ l => rev l) 0 2 pr acc = None /\ path_loop (@Graph.source Z) fuel (fun _ l => rev l) 0 3 pr acc = None).
  { intros pr fuel acc H1 H2 H3. revert acc. induction fuel as [|fuel IH]; intros acc; [auto|]. cbn [path_loop Nat.eqb]. rewrite H1, H2, H3. cbn [Graph.source]. split; [apply IH|]. split; apply IH. }
  exists (fun _ l => rev l). eexists. split; [intros n l; apply Permutation_sym, Permutation_rev|]. split; [|split; [vm_compute; reflexivity|split; [vm_compute; reflexivity|split]]].
  - intros u e _ I. apply filter_In in I. destruct I as [I S]. apply Nat.eqb_eq in S. split; [exact S|]. repeat (destruct I as [<-|I]; [cbn; split; [tauto|split; [reflexivity|lia]]|]). destruct I.
  - intros fuel. apply G; reflexivity.
  - intros fuel F. do 4 (destruct fuel as [|fuel]; [lia|]). unfold dijkstra_shortest_path.
    assert (R : exists st, dijkstra_shortest_paths lx_V wc_out Graph.target (fun e => Ok (distinguisher e)) (Some GreaterThan) (closed_min 0) 100 0 (towards 3) (S (S (S (S fuel)))) 0 [] [] [] = Some (st, Stopped) /\
      rev (preds_of (d_preds st) 1) = [Edge 2%nat 1%nat 9; Edge 0%nat 1%nat 5] /\ rev (preds_of (d_preds st) 2) = [Edge 1%nat 2%nat 9] /\ rev (preds_of (d_preds st) 3) = [Edge 2%nat 3%nat 2]).
    { eexists. split; [vm_compute; reflexivity|]. repeat split. }
    destruct R as (st & R & H1 & H2 & H3). rewrite R. unfold make_shortest_path. destruct (G (d_preds st) (S (S (S (S fuel)))) [] H1 H2 H3) as (_ & _ & ->). reflexivity.
Qed.
Print Assumptions C83_widest_path_refuted.
