(** Theorems C51-C55 on dijkstra_shortest_paths. *)
From Coq Require Import Sorted ZArith.
From Verif Require Import Graph Search Heap HeapProofs Dijkstra DijkstraSpec DijkstraProofs Base BaseProofs.
Open Scope Z_scope.

Section T.
  Context {E : Type} {EE : EqDec E}.
  Variables (V : list nat) (out_edges : nat -> list E) (source target : E -> nat) (pmap_eweight : E -> res Z) (w : E -> Z).
  Variable compare_arg : option (Z -> Z -> bool).
  Variables (absorbing infty : Z) (s : nat).
  (** compare: None (dijkstra_shortest_paths.py:202) or Less() (dijkstra_shortest_paths.py:416) *)
  Hypothesis H_compare : compare_arg = None \/ compare_arg = Some Less.
  Hypothesis H_infty : 0 < infty <= absorbing.
  Hypothesis H_source : In s V.
  Hypothesis H_graph : weighted_graph V out_edges source target pmap_eweight w.
  Local Notation run raises fuel dist := (dijkstra_shortest_paths V out_edges target pmap_eweight compare_arg (closed_plus absorbing) 0 infty raises fuel s dist [] []).
  Local Notation dist_of st v := (key_of (d_dist st) v).
  Local Notation walk := (walk_of out_edges target).
  Local Notation INV := (inv V out_edges source target w absorbing infty s).

  Lemma done_run fuel dist : (length V <= fuel)%nat -> exists st S P, run no_stop fuel dist = Some (st, Done) /\ INV S P st /\ full out_edges S P /\ hp_data (d_heap st) = [].
  Proof.
    intros F. destruct (dijkstra_spec V out_edges source target pmap_eweight w compare_arg absorbing infty no_stop s H_compare H_infty H_source H_graph ltac:(discriminate) fuel dist F) as (st & S & P & I & [(E1 & E2 & E3 & _)|(_ & u & _ & N & _)]); [|discriminate].
    exists st, S, P. auto.
  Qed.
  Lemma done_inv fuel dist st : (length V <= fuel)%nat -> run no_stop fuel dist = Some (st, Done) -> exists S P, INV S P st /\ full out_edges S P /\ hp_data (d_heap st) = [].
  Proof. intros F R. destruct (done_run fuel dist F) as (st' & S & P & R' & I). rewrite R in R'. injection R' as <-. eauto. Qed.
  Lemma dist_eq S P st v d : INV S P st -> In v V -> dget (d_dist st) v = Some d <-> dist_of st v = d.
  Proof. intros I Vv. destruct (i_def _ _ _ _ _ _ _ _ _ _ _ I v Vv) as [d' E']. unfold key_of. rewrite E'. split; congruence. Qed.

  (** C51 *)
  Theorem C51_distances fuel dist : (length V <= fuel)%nat -> exists st, run no_stop fuel dist = Some (st, Done) /\
    forall v, In v V -> exists d, dget (d_dist st) v = Some d /\ distance_is out_edges target w infty s v d.
  Proof.
    intros F. destruct (done_run fuel dist F) as (st & S & P & R & I & FULL & HE). exists st. split; [exact R|]. intros v Vv. exists (dist_of st v). split; [apply (dist_eq S P); [exact I|exact Vv|reflexivity]|].
    apply (final_distance V out_edges source target pmap_eweight w absorbing infty s H_infty H_source H_graph S P st I FULL HE v Vv).
  Qed.
  (** C52. [closed_plus] is + unless an operand is [absorbing]. *)
  Theorem C52_predecessors fuel dist st : (length V <= fuel)%nat -> run no_stop fuel dist = Some (st, Done) ->
    forall v d_v, In v V -> dget (d_dist st) v = Some d_v -> NoDup (preds_of (d_preds st) v) /\ forall e, In e (preds_of (d_preds st) v) <->
      exists u d_u, In u V /\ dget (d_dist st) u = Some d_u /\ d_u < infty /\ In e (out_edges u) /\ target e = v /\ (d_u + w e = d_v \/ w e = absorbing /\ d_v = absorbing).
  Proof.
    intros F R v d_v Vv Ev. destruct (done_inv fuel dist st F R) as (S & P & I & FULL & HE). split; [apply (i_pn _ _ _ _ _ _ _ _ _ _ _ I)|]. intros e. rewrite (i_preds _ _ _ _ _ _ _ _ _ _ _ I v e). apply (dist_eq S P st v d_v I Vv) in Ev. rewrite Ev.
    pose proof (i_top _ _ _ _ _ _ _ _ _ _ _ I v Vv) as Tv. rewrite Ev in Tv. split.
    - intros (J & Et & Ec). destruct (i_P _ _ _ _ _ _ _ _ _ _ _ I e J) as (J1 & J2 & _). destruct (i_S _ _ _ _ _ _ _ _ _ _ _ I _ J1) as [Vu Fu]. exists (source e), (dist_of st (source e)).
      split; [exact Vu|]. split; [apply (dist_eq S P); auto|]. split; [exact Fu|]. split; [exact J2|]. split; [exact Et|]. unfold closed_plus in Ec. destruct (Z.eqb_spec (dist_of st (source e)) absorbing); [lia|]. destruct (Z.eqb_spec (w e) absorbing); cbn in Ec; [right; lia|left; exact Ec].
    - intros (u & d_u & Vu & Eu & Fu & Ie & Et & C). apply (dist_eq S P st u d_u I Vu) in Eu. destruct (H_graph u e Vu Ie) as (Es & _ & _ & Wn). pose proof (i_top _ _ _ _ _ _ _ _ _ _ _ I u Vu) as Tu.
      assert (Ju : In u S) by (apply (final_S V out_edges source target w absorbing infty s S P st I HE); subst d_u; auto).
      split; [apply (FULL u e Ju Ie)|]. split; [exact Et|]. rewrite Es, Eu. unfold closed_plus. destruct (Z.eqb_spec d_u absorbing); [lia|]. destruct (Z.eqb_spec (w e) absorbing); cbn; lia.
  Qed.
  (** below infinity, it is the usual sum *)
  Theorem C52_reachable fuel dist st : (length V <= fuel)%nat -> run no_stop fuel dist = Some (st, Done) ->
    forall v d_v e, In v V -> dget (d_dist st) v = Some d_v -> d_v < infty -> In e (preds_of (d_preds st) v) <->
      exists u d_u, In u V /\ dget (d_dist st) u = Some d_u /\ In e (out_edges u) /\ target e = v /\ d_u + w e = d_v.
  Proof.
    intros F R v d_v e Vv Ev Fv. rewrite (proj2 (C52_predecessors fuel dist st F R v d_v Vv Ev)). split.
    - intros (u & d_u & H1 & H2 & H3 & H4 & H5 & [H6|[_ H6]]); [|lia]. exists u, d_u. auto.
    - intros (u & d_u & H1 & H2 & H4 & H5 & H6). exists u, d_u. destruct (H_graph u e H1 H4) as (_ & _ & _ & Wn). split; [exact H1|]. split; [exact H2|]. split; [lia|]. auto.
  Qed.

  (** C53, when the cycles have positive weights *)
  Theorem C53_shortest_path fuel dist st fuel' ord t d : (length V <= fuel)%nat -> run no_stop fuel dist = Some (st, Done) ->
    valid_order ord -> positive_cycles V out_edges target w -> (length V <= fuel')%nat -> In t V -> dget (d_dist st) t = Some d -> d < infty ->
    exists p, make_shortest_path source fuel' ord s t (d_preds st) = Some (Ok p) /\ shortest out_edges target w s p t /\ weight w p = d.
  Proof.
    intros F R OV NZ F' Vt Et Ft. destruct (done_inv fuel dist st F R) as (S & P & I & FULL & HE). apply (dist_eq S P st t d I Vt) in Et. subst d.
    destruct (path_spec V out_edges source target w absorbing infty s H_infty S P st ord t I OV NZ fuel' t [] []) as (p & Q1 & Q2 & Q3); [exact Vt|exact Ft|constructor|apply tail_start; exact Vt|cbn; lia|].
    cbn in Q3. rewrite Z.add_0_r in Q3. exists p. split; [exact Q1|]. split; [|exact Q3]. split; [exact Q2|]. intros q Wq. rewrite Q3. apply (final_lower V out_edges source target pmap_eweight w absorbing infty s H_infty H_source H_graph S P st I FULL HE t q Wq).
  Qed.

  (** Whatever the cycles: make_shortest_path raises nothing, and if it ends, the result is right. *)
  Lemma path_ends S P st ord t : INV S P st -> valid_order ord -> forall fuel u acc, In u V -> dist_of st u < infty -> walk u acc t ->
    match path_loop source fuel ord s u (d_preds st) acc with
    | None => True
    | Some (Ok p) => walk s p t /\ weight w p = dist_of st u + weight w acc
    | Some (Raise _) => False
    end.
  Proof.
    intros I OV. induction fuel as [|fuel IH]; intros u acc Vu Fu Wa; cbn [path_loop]; destruct (Nat.eqb_spec u s) as [->|Nu].
    - rewrite (i_src _ _ _ _ _ _ _ _ _ _ _ I). auto.
    - exact Logic.I.
    - rewrite (i_src _ _ _ _ _ _ _ _ _ _ _ I). auto.
    - pose proof (i_some _ _ _ _ _ _ _ _ _ _ _ I u Vu Fu Nu) as NE. pose proof (OV fuel (preds_of (d_preds st) u)) as PO. destruct (ord fuel (preds_of (d_preds st) u)) as [|e l]; [apply Permutation_nil in PO; contradiction|].
      assert (J : In e (preds_of (d_preds st) u)) by (apply (Permutation_in _ PO); left; reflexivity).
      destruct (pred_tight V out_edges source target w absorbing infty s H_infty S P st u e I J Fu) as (H1 & H2 & H3 & H4 & H5).
      specialize (IH (source e) (e :: acc) H1 H5). destruct (path_loop source fuel ord s (source e) (d_preds st) (e :: acc)) as [[p|x]|]; [|apply IH; constructor; [exact H2|rewrite H3; exact Wa]|exact Logic.I].
      destruct IH as [Q1 Q2]; [constructor; [exact H2|rewrite H3; exact Wa]|]. split; [exact Q1|]. rewrite Q2. cbn [weight fold_right]. fold (weight w acc). lia.
  Qed.
  Theorem C53_when_it_ends fuel dist st fuel' ord t d r : (length V <= fuel)%nat -> run no_stop fuel dist = Some (st, Done) ->
    valid_order ord -> In t V -> dget (d_dist st) t = Some d -> d < infty -> make_shortest_path source fuel' ord s t (d_preds st) = Some r ->
    exists p, r = Ok p /\ shortest out_edges target w s p t /\ weight w p = d.
  Proof.
    intros F R OV Vt Et Ft MP. destruct (done_inv fuel dist st F R) as (S & P & I & FULL & HE). apply (dist_eq S P st t d I Vt) in Et. subst d.
    pose proof (path_ends S P st ord t I OV fuel' t [] Vt Ft (walk_nil _ _ t)) as Q. unfold make_shortest_path in MP. rewrite MP in Q. destruct r as [p|x]; [|destruct Q].
    destruct Q as [Q2 Q3]. cbn in Q3. rewrite Z.add_0_r in Q3. exists p. split; [reflexivity|]. split; [|exact Q3]. split; [exact Q2|]. intros q Wq. rewrite Q3. apply (final_lower V out_edges source target pmap_eweight w absorbing infty s H_infty H_source H_graph S P st I FULL HE t q Wq).
  Qed.
  (** When the distance is infty: IndexError, unless an edge leads to t from a vertex below infinity with exactly the weight infty (see C54_at_infty);
      then the result is a shortest path to the source of such an edge, and this edge. *)
  Theorem C53_at_infty fuel dist st fuel' ord t : (length V <= fuel)%nat -> run no_stop fuel dist = Some (st, Done) ->
    valid_order ord -> positive_cycles V out_edges target w -> (length V < fuel')%nat -> In t V -> dget (d_dist st) t = Some infty ->
    let last e := exists u d_u, In u V /\ dget (d_dist st) u = Some d_u /\ d_u < infty /\ In e (out_edges u) /\ target e = t /\ (d_u + w e = infty \/ w e = absorbing /\ infty = absorbing) in
    (make_shortest_path source fuel' ord s t (d_preds st) = Some (Raise IndexError) /\ forall e, ~ last e) \/
    (exists p e, make_shortest_path source fuel' ord s t (d_preds st) = Some (Ok (p ++ [e])) /\ last e /\ shortest out_edges target w s p (source e)).
  Proof.
    intros F R OV NZ F' Vt Et last. pose proof (proj2 (C52_predecessors fuel dist st F R t infty Vt Et)) as PT. change (forall e, In e (preds_of (d_preds st) t) <-> last e) in PT.
    destruct (done_inv fuel dist st F R) as (S & P & I & FULL & HE). apply (dist_eq S P st t infty I Vt) in Et. unfold make_shortest_path.
    destruct fuel' as [|fuel']; [lia|]. cbn [path_loop]. destruct (Nat.eqb_spec t s) as [->|Nu]; [rewrite (i_src _ _ _ _ _ _ _ _ _ _ _ I) in Et; lia|].
    pose proof (OV fuel' (preds_of (d_preds st) t)) as PO. destruct (ord fuel' (preds_of (d_preds st) t)) as [|e l].
    - left. split; [reflexivity|]. intros e Le. apply PT, (Permutation_in _ (Permutation_sym PO)) in Le. destruct Le.
    - right. assert (J : In e (preds_of (d_preds st) t)) by (apply (Permutation_in _ PO); left; reflexivity). apply PT in J. pose proof J as (u & d_u & H1 & H2 & H3 & H4 & H5 & H6).
      destruct (H_graph u e H1 H4) as (Es & _). subst u. apply (dist_eq S P st _ _ I H1) in H2. subst d_u.
      assert (Q : exists p, path_loop source fuel' ord s (source e) (d_preds st) [] = Some (Ok p) /\ shortest out_edges target w s p (source e)).
      { destruct (path_spec V out_edges source target w absorbing infty s H_infty S P st ord (source e) I OV NZ fuel' (source e) [] []) as (p & Q1 & Q2 & Q3); [exact H1|exact H3|constructor|apply tail_start; exact H1|cbn; lia|].
        cbn in Q3. rewrite Z.add_0_r in Q3. exists p. split; [exact Q1|]. split; [exact Q2|]. intros q Wq. rewrite Q3. apply (final_lower V out_edges source target pmap_eweight w absorbing infty s H_infty H_source H_graph S P st I FULL HE (source e) q Wq). }
      destruct Q as (p & Q1 & Q2). exists p, e. split; [|split; [exact J|exact Q2]].
      assert (ACC : forall fuel u acc, path_loop source fuel ord s u (d_preds st) (acc ++ [e]) = option_map (fun r => match r with Ok p => Ok (p ++ [e]) | Raise x => Raise x end) (path_loop source fuel ord s u (d_preds st) acc)).
      { clear. induction fuel as [|fuel IH]; intros u acc; cbn [path_loop]; (destruct (Nat.eqb u s); [reflexivity|]); [reflexivity|]. destruct (ord fuel (preds_of (d_preds st) u)) as [|e' l]; [reflexivity|]. apply (IH _ (e' :: acc)). }
      etransitivity; [apply (ACC fuel' (source e) [])|]. rewrite Q1. reflexivity.
  Qed.

  (** C54, when the distance is below infinity *)
  Theorem C54_shortest_paths_dag fuel dist st fuel' ord t d : (length V <= fuel)%nat -> run no_stop fuel dist = Some (st, Done) ->
    (length V <= fuel')%nat -> In t V -> dget (d_dist st) t = Some d -> d < infty ->
    exists K, make_shortest_paths_dag source fuel' ord t (d_preds st) false = Some K /\ NoDup K /\ forall e, In e K <-> exists p, shortest out_edges target w s p t /\ In e p.
  Proof.
    intros F R F' Vt Et Ft. destruct (done_inv fuel dist st F R) as (S & P & I & FULL & HE). apply (dist_eq S P st t d I Vt) in Et. subst d.
    destruct (dag_spec source compare_arg absorbing infty H_compare H_infty (d_preds st) ord t V Vt) with (fuel := fuel') (K := @nil E) (T := [t]) (D := @nil nat) as (K & K1 & K2 & K3).
    - intros v e Vv Je. apply (i_preds _ _ _ _ _ _ _ _ _ _ _ I) in Je. destruct Je as (Je & _). apply (i_S _ _ _ _ _ _ _ _ _ _ _ I), (i_P _ _ _ _ _ _ _ _ _ _ _ I e Je).
    - repeat constructor. intros [].
    - constructor.
    - intros v _ [].
    - intros v [[<-|[]]|[]]. split; [constructor|exact Vt].
    - left. left. reflexivity.
    - intros e. split; [intros []|intros (v & [] & _)].
    - constructor.
    - intros v e [].
    - cbn. lia.
    - exists K. split; [exact K1|]. split; [exact K2|]. intros e. rewrite K3. apply (dag_edges V out_edges source target pmap_eweight w absorbing infty s H_infty H_source H_graph S P st t e I FULL HE Vt Ft).
  Qed.
  (** When the distance is infty, the result is not always empty: an edge towards t is kept when its source is below infinity
      and its weight is infty (the absorbing value) or leads exactly to infty; the shortest paths to its source come with it. *)
  Theorem C54_at_infty fuel dist st fuel' ord t : (length V <= fuel)%nat -> run no_stop fuel dist = Some (st, Done) ->
    (length V <= fuel')%nat -> In t V -> dget (d_dist st) t = Some infty ->
    exists K, make_shortest_paths_dag source fuel' ord t (d_preds st) false = Some K /\ NoDup K /\ forall e, In e K <->
      exists u d_u e_t, In u V /\ dget (d_dist st) u = Some d_u /\ d_u < infty /\ In e_t (out_edges u) /\ target e_t = t /\ (d_u + w e_t = infty \/ w e_t = absorbing /\ infty = absorbing) /\
        (e = e_t \/ exists p, shortest out_edges target w s p u /\ In e p).
  Proof.
    intros F R F' Vt Et. pose proof (proj2 (C52_predecessors fuel dist st F R t infty Vt Et)) as PT. destruct (done_inv fuel dist st F R) as (S & P & I & FULL & HE).
    destruct (dag_spec source compare_arg absorbing infty H_compare H_infty (d_preds st) ord t V Vt) with (fuel := fuel') (K := @nil E) (T := [t]) (D := @nil nat) as (K & K1 & K2 & K3).
    - intros v e Vv Je. apply (i_preds _ _ _ _ _ _ _ _ _ _ _ I) in Je. destruct Je as (Je & _). apply (i_S _ _ _ _ _ _ _ _ _ _ _ I), (i_P _ _ _ _ _ _ _ _ _ _ _ I e Je).
    - repeat constructor. intros [].
    - constructor.
    - intros v _ [].
    - intros v [[<-|[]]|[]]. split; [constructor|exact Vt].
    - left. left. reflexivity.
    - intros e. split; [intros []|intros (v & [] & _)].
    - constructor.
    - intros v e [].
    - cbn. lia.
    - exists K. split; [exact K1|]. split; [exact K2|]. intros e. rewrite K3.
      assert (BACK : forall v, back source (d_preds st) t v <-> v = t \/ exists e0, In e0 (preds_of (d_preds st) t) /\ back source (d_preds st) (source e0) v).
      { intros v. split.
        - induction 1 as [|v e' _ IH J]; [auto|]. right. destruct IH as [->|(e0 & J0 & B)]; [exists e'; split; [exact J|constructor]|exists e0; split; [exact J0|econstructor; eassumption]].
        - intros [->|(e0 & J0 & B)]; [constructor|]. induction B as [|v e' _ IH J]; [econstructor; [constructor|exact J0]|econstructor; eassumption]. }
      assert (SUB : forall u, In u V -> dist_of st u < infty -> (exists v, back source (d_preds st) u v /\ In e (preds_of (d_preds st) v)) <-> exists p, shortest out_edges target w s p u /\ In e p).
      { intros u Vu Fu. apply (dag_edges V out_edges source target pmap_eweight w absorbing infty s H_infty H_source H_graph S P st u e I FULL HE Vu Fu). }
      split.
      + intros (v & B & J). apply BACK in B. destruct B as [->|(e0 & J0 & B)].
        * apply PT in J. destruct J as (u & d_u & H1 & H2 & H3 & H4 & H5 & H6). exists u, d_u, e. intuition.
        * apply PT in J0. destruct J0 as (u & d_u & H1 & H2 & H3 & H4 & H5 & H6). exists u, d_u, e0. repeat (split; [assumption|]). right.
          destruct (H_graph u e0 H1 H4) as (Es & _). subst u. apply (SUB (source e0) H1); [apply (dist_eq S P st _ _ I H1) in H2; lia|]. exists v. auto.
      + intros (u & d_u & e0 & H1 & H2 & H3 & H4 & H5 & H6 & [->|H7]).
        * exists t. split; [constructor|]. apply PT. exists u, d_u. auto 10.
        * destruct (H_graph u e0 H1 H4) as (Es & _). subst u. apply (SUB (source e0) H1) in H7; [|apply (dist_eq S P st _ _ I H1) in H2; lia]. destruct H7 as (v & B & J). exists v. split; [|exact J].
          apply BACK. right. exists e0. split; [|exact B]. apply PT. exists (source e0), d_u. auto 10.
  Qed.
  (** no path, no edges *)
  Theorem C54_no_path fuel dist st fuel' ord single t : (length V <= fuel)%nat -> run no_stop fuel dist = Some (st, Done) -> (1 <= fuel')%nat -> valid_order ord ->
    (forall p, ~ walk s p t) -> make_shortest_paths_dag source fuel' ord t (d_preds st) single = Some [].
  Proof.
    intros F R F' OV NW. destruct (done_inv fuel dist st F R) as (S & P & I & FULL & HE).
    assert (N : preds_of (d_preds st) t = []). { destruct (preds_of (d_preds st) t) as [|e l] eqn:Ep; [reflexivity|]. exfalso. assert (J : In e (preds_of (d_preds st) t)) by (rewrite Ep; left; reflexivity).
      apply (i_preds _ _ _ _ _ _ _ _ _ _ _ I) in J. destruct J as (J & Et & _). destruct (i_P _ _ _ _ _ _ _ _ _ _ _ I e J) as (J1 & J2 & _). destruct (i_S _ _ _ _ _ _ _ _ _ _ _ I _ J1) as [Vu Fu]. destruct (i_walk _ _ _ _ _ _ _ _ _ _ _ I _ Vu Fu) as (p & Wp & _).
      apply (NW (p ++ [e])). apply (walk_app out_edges target s p (source e) [e]); [exact Wp|]. constructor; [exact J2|]. rewrite Et. constructor. }
    unfold make_shortest_paths_dag. destruct fuel' as [|fuel']; [lia|]. cbn [dag_loop flat_map]. rewrite N. cbn. destruct single; [|destruct fuel'; reflexivity]. pose proof (OV fuel' []) as PO. apply Permutation_sym, Permutation_nil in PO. rewrite PO. cbn. destruct fuel'; reflexivity.
  Qed.
  (** with single_path=True: the edges of one shortest path *)
  Theorem C54_single_path fuel dist st fuel' ord t d : (length V <= fuel)%nat -> run no_stop fuel dist = Some (st, Done) ->
    valid_order ord -> positive_cycles V out_edges target w -> (length V <= fuel')%nat -> In t V -> dget (d_dist st) t = Some d -> d < infty ->
    exists p K, make_shortest_paths_dag source fuel' ord t (d_preds st) true = Some K /\ NoDup K /\ shortest out_edges target w s p t /\ forall e, In e K <-> In e p.
  Proof.
    intros F R OV NZ F' Vt Et Ft. destruct (done_inv fuel dist st F R) as (S & P & I & FULL & HE). apply (dist_eq S P st t d I Vt) in Et. subst d.
    destruct (single_spec V out_edges source target w compare_arg absorbing infty s H_compare H_infty S P st ord t I OV NZ fuel' t [] [] [] []) as (p & K & Q1 & Q2 & Q3 & Q4 & Q5); [exact Vt|exact Ft|constructor|apply tail_start; exact Vt|cbn; lia|reflexivity|constructor|reflexivity|].
    cbn in Q4. rewrite Z.add_0_r in Q4. exists p, K. split; [exact Q1|]. split; [exact Q2|]. split; [|exact Q5]. split; [exact Q3|]. intros q Wq. rewrite Q4. apply (final_lower V out_edges source target pmap_eweight w absorbing infty s H_infty H_source H_graph S P st I FULL HE t q Wq).
  Qed.

  (** C55. The result does not depend on the order of the sets but for the choice of the path. *)
  Theorem C55_shortest_path fuel ord t dist : (length V <= fuel)%nat -> valid_order ord -> positive_cycles V out_edges target w ->
    exists r, dijkstra_shortest_path V out_edges source target pmap_eweight compare_arg (closed_plus absorbing) 0 infty fuel ord s t dist [] [] = Some (Ok r) /\
      (r = None <-> forall p, walk s p t -> infty <= weight w p) /\
      forall p, r = Some p -> shortest out_edges target w s p t /\ weight w p < infty.
  Proof.
    intros F OV NZ. unfold dijkstra_shortest_path.
    destruct (dijkstra_spec V out_edges source target pmap_eweight w compare_arg absorbing infty (towards t) s H_compare H_infty H_source H_graph) with (fuel := fuel) (dist := dist) as (st & S & P & I & [(R & FULL & HE & Q)|(R & u & Vu & N & Fu & LW)]); [|exact F| |].
    - intros [ | | | | | | ]; cbn; try discriminate. eauto.
    - rewrite R. exists None. split; [reflexivity|]. split; [|discriminate]. split; [|reflexivity]. intros _ p Wp.
      destruct (final_lower V out_edges source target pmap_eweight w absorbing infty s H_infty H_source H_graph S P st I FULL HE t p Wp) as [L Vt].
      destruct (Z.lt_ge_cases (dist_of st t) infty) as [Ft|Ft]; [|lia]. exfalso. assert (J : In t S) by (apply (final_S V out_edges source target w absorbing infty s S P st I HE); auto). specialize (Q t J). cbn in Q. rewrite Nat.eqb_refl in Q. discriminate.
    - cbn in N. apply Nat.eqb_eq in N. subst u. rewrite R. unfold make_shortest_path.
      destruct (path_spec V out_edges source target w absorbing infty s H_infty S P st ord t I OV NZ fuel t [] []) as (p & Q1 & Q2 & Q3); [exact Vu|exact Fu|constructor|apply tail_start; exact Vu|cbn; lia|].
      cbn in Q3. rewrite Z.add_0_r in Q3. rewrite Q1. exists (Some p). split; [reflexivity|]. split.
      + split; [discriminate|]. intros H. specialize (H p Q2). lia.
      + intros p' [= <-]. split; [|lia]. split; [exact Q2|]. intros q Wq. rewrite Q3. apply LW, Wq.
  Qed.
  (** whatever the cycles: nothing is raised, and if the call ends, its result is right *)
  Theorem C55_when_it_ends fuel ord t dist r : (length V <= fuel)%nat -> valid_order ord ->
    dijkstra_shortest_path V out_edges source target pmap_eweight compare_arg (closed_plus absorbing) 0 infty fuel ord s t dist [] [] = Some r ->
    match r with
    | Ok None => forall p, walk s p t -> infty <= weight w p
    | Ok (Some p) => shortest out_edges target w s p t /\ weight w p < infty
    | Raise _ => False
    end.
  Proof.
    intros F OV. unfold dijkstra_shortest_path.
    destruct (dijkstra_spec V out_edges source target pmap_eweight w compare_arg absorbing infty (towards t) s H_compare H_infty H_source H_graph) with (fuel := fuel) (dist := dist) as (st & S & P & I & [(R & FULL & HE & Q)|(R & u & Vu & N & Fu & LW)]); [|exact F| |].
    - intros [ | | | | | | ]; cbn; try discriminate. eauto.
    - rewrite R. intros [= <-] p Wp.
      destruct (final_lower V out_edges source target pmap_eweight w absorbing infty s H_infty H_source H_graph S P st I FULL HE t p Wp) as [L Vt].
      destruct (Z.lt_ge_cases (dist_of st t) infty) as [Ft|Ft]; [|lia]. exfalso. assert (J : In t S) by (apply (final_S V out_edges source target w absorbing infty s S P st I HE); auto). specialize (Q t J). cbn in Q. rewrite Nat.eqb_refl in Q. discriminate.
    - cbn in N. apply Nat.eqb_eq in N. subst u. rewrite R. pose proof (path_ends S P st ord t I OV fuel t [] Vu Fu (walk_nil _ _ t)) as Q. unfold make_shortest_path.
      destruct (path_loop source fuel ord s t (d_preds st) []) as [[p|x]|]; [|destruct Q|discriminate]. intros [= <-]. destruct Q as [Q2 Q3]. cbn in Q3. rewrite Z.add_0_r in Q3.
      split; [|lia]. split; [exact Q2|]. intros q Wq. rewrite Q3. apply LW, Wq.
  Qed.
  (** the early stop does not change the answer: as after a complete run, there is a path exactly below infinity, of weight the distance *)
  Theorem C55_same_distance fuel ord t dist st d p : (length V <= fuel)%nat -> valid_order ord -> positive_cycles V out_edges target w -> In t V ->
    run no_stop fuel dist = Some (st, Done) -> dget (d_dist st) t = Some d ->
    dijkstra_shortest_path V out_edges source target pmap_eweight compare_arg (closed_plus absorbing) 0 infty fuel ord s t dist [] [] = Some (Ok (Some p)) ->
    weight w p = d.
  Proof.
    intros F OV NZ Vt R Et D. destruct (C55_shortest_path fuel ord t dist F OV NZ) as (r & R1 & _ & R2). rewrite D in R1. injection R1 as <-. destruct (R2 p eq_refl) as [[W1 W2] Fp].
    destruct (C51_distances fuel dist F) as (st' & R' & DI). rewrite R in R'. injection R' as <-. destruct (DI t Vt) as (d' & Ed' & C). rewrite Et in Ed'. injection Ed' as <-.
    destruct C as [[_ (q & [Q1 Q2] & <-)]|[-> C]]; [|specialize (C p W1); lia]. specialize (Q2 p W1). specialize (W2 q Q1). lia.
  Qed.

  (** C72: the calls received by the visitor *)
  Theorem C72_events fuel dist st : (length V <= fuel)%nat -> run no_stop fuel dist = Some (st, Done) ->
    let examined := flat_map (fun x => match x with DExamine v => [v] | _ => [] end) (d_log st) in
    let discovered := flat_map (fun x => match x with DDiscover v => [v] | _ => [] end) (d_log st) in
    NoDup examined /\ (forall v, In v examined <-> In v V /\ exists p, walk s p v /\ weight w p < infty) /\
    StronglySorted (fun x y => forall d d', dget (d_dist st) x = Some d -> dget (d_dist st) y = Some d' -> d <= d') examined /\
    NoDup discovered /\ (forall v, In v discovered <-> v <> s /\ In v examined).
  Proof.
    intros F R. destruct (done_inv fuel dist st F R) as (S & P & I & FULL & HE). cbv zeta. pose proof (i_log _ _ _ _ _ _ _ _ _ _ _ I) as L. unfold examined_vertices in L. rewrite L.
    assert (HS : forall v, In v S <-> In v V /\ dist_of st v < infty) by apply (final_S V out_edges source target w absorbing infty s S P st I HE).
    split; [apply (i_Sn _ _ _ _ _ _ _ _ _ _ _ I)|]. split; [|split; [|split; [apply (i_discn _ _ _ _ _ _ _ _ _ _ _ I)|]]].
    - intros v. rewrite HS. split; intros [Vv H]; (split; [exact Vv|]).
      + destruct (i_walk _ _ _ _ _ _ _ _ _ _ _ I v Vv H) as (p & Wp & Ep). exists p. split; [exact Wp|lia].
      + destruct H as (p & Wp & Lp). pose proof (proj1 (final_lower V out_edges source target pmap_eweight w absorbing infty s H_infty H_source H_graph S P st I FULL HE v p Wp)). lia.
    - pose proof (i_sorted _ _ _ _ _ _ _ _ _ _ _ I) as SS. clear -SS. induction SS as [|a l SS IH FA]; [constructor|]. constructor; [exact IH|]. revert FA. apply Forall_impl. intros b Hb d d' Ed Ed'. unfold key_of in Hb. rewrite Ed, Ed' in Hb. exact Hb.
    - intros v. rewrite HS. apply (i_disc _ _ _ _ _ _ _ _ _ _ _ I).
  Qed.
End T.
Print Assumptions C51_distances. Print Assumptions C52_predecessors. Print Assumptions C52_reachable. Print Assumptions C53_shortest_path. Print Assumptions C53_when_it_ends. Print Assumptions C53_at_infty. Print Assumptions C54_shortest_paths_dag.
Print Assumptions C54_at_infty. Print Assumptions C54_no_path. Print Assumptions C54_single_path. Print Assumptions C55_shortest_path. Print Assumptions C55_when_it_ends. Print Assumptions C55_same_distance. Print Assumptions C72_events.

(** The graphs of the class DirectedGraph, when the targets of the edges are vertices *)
Lemma out_edges_edges g u e : In e (G_out_edges g u) -> Graph.source e = u /\ In e (G_edges g).
Proof.
  unfold G_out_edges, G_edges. destruct (dget (adjacencies g) u) as [adjs|] eqn:G; [|intros []]. intros I. split.
  - unfold star in I. apply in_flat_map in I. destruct I as ([v l] & _ & I). apply in_map_iff in I. destruct I as (n & <- & _). reflexivity.
  - apply in_flat_map. exists (u, adjs). split; [apply dget_In, G|exact I].
Qed.
Theorem C51_directed_graph (g : graph) (weight_of : dict gedge Z) s fuel dist : In s (G_vertices g) ->
  (forall e, In e (G_edges g) -> In (Graph.target e) (G_vertices g) /\ exists k, dget weight_of e = Some k /\ 0 <= k) -> (length (G_vertices g) <= fuel)%nat ->
  let pmap e := match dget weight_of e with Some k => Ok k | None => Raise KeyError end in
  let w e := match dget weight_of e with Some k => k | None => 0 end in
  exists st, dijkstra_shortest_paths (G_vertices g) (G_out_edges g) Graph.target pmap None (closed_plus (2 ^ 63 - 1)) 0 (2 ^ 63 - 1) no_stop fuel s dist [] [] = Some (st, Done) /\
  forall v, In v (G_vertices g) -> exists d, dget (d_dist st) v = Some d /\ distance_is (G_out_edges g) Graph.target w (2 ^ 63 - 1) s v d.
Proof.
  intros Hs HE F pmap w. apply (C51_distances (G_vertices g) (G_out_edges g) Graph.source Graph.target pmap w None (2 ^ 63 - 1) (2 ^ 63 - 1) s); [left; reflexivity|split; [reflexivity|apply Z.le_refl]|exact Hs| |exact F].
  intros u e Vu Ie. destruct (out_edges_edges g u e Ie) as [Es Ie']. destruct (HE e Ie') as (H1 & k & H2 & H3). unfold pmap, w. rewrite H2. auto.
Qed.
Print Assumptions C51_directed_graph.

(** Example: two shortest paths from 0 to 3, a heavier edge, an unreachable vertex *)
Definition ex_edges : list (edge Z) := [Edge 0 1 2; Edge 0 2 1; Edge 2 1 1; Edge 1 3 4; Edge 2 3 9; Edge 3 0 1; Edge 4 0 1].
Definition ex_out (u : nat) : list (edge Z) := filter (fun e => Nat.eqb (Graph.source e) u) ex_edges.
Definition ex_V : list nat := [0; 1; 2; 3; 4]%nat.
Definition ex_run (arg : option (Z -> Z -> bool)) := dijkstra_shortest_paths ex_V ex_out Graph.target (fun e => Ok (distinguisher e)) arg (closed_plus 100) 0 100 no_stop 5 0 [] [] [].
Example ex_graph : weighted_graph ex_V ex_out Graph.source Graph.target (fun e => Ok (distinguisher e)) distinguisher /\ In 0%nat ex_V /\ (0 < 100 <= 100) /\ (length ex_V <= 5)%nat.
Proof.
  split; [|cbn; lia]. intros u e _ I. apply filter_In in I. destruct I as [I S]. apply Nat.eqb_eq in S. split; [exact S|].
  repeat (destruct I as [<-|I]; [cbn; split; [tauto|split; [reflexivity|lia]]|]). destruct I.
Qed.
Example C51_example : forall arg, arg = None \/ arg = Some Less -> option_map (fun '(st, r) => (map (dget (d_dist st)) ex_V, map (preds_of (d_preds st)) ex_V, r)) (ex_run arg)
  = Some ([Some 0; Some 2; Some 1; Some 6; Some 100], [[]; [Edge 0 1 2; Edge 2 1 1]; [Edge 0 2 1]; [Edge 1 3 4]; []], Done).
Proof. intros arg [-> | ->]; vm_compute; reflexivity. Qed.
Example ex_positive : positive_cycles ex_V ex_out Graph.target distinguisher.
Proof.
  intros u p _ W N. assert (G : forall u q v, walk_of ex_out Graph.target u q v -> 0 <= weight distinguisher q /\ (q <> [] -> 0 < weight distinguisher q)).
  { induction 1 as [|a e q v I W' [IH _]]; [cbn; split; [lia|contradiction]|]. cbn [weight fold_right]. fold (weight (@distinguisher Z) q). apply filter_In in I. destruct I as [I _].
    assert (1 <= distinguisher e) by (repeat (destruct I as [<-|I]; [cbn; lia|]); destruct I). split; intros; lia. }
  apply (G _ _ _ W), N.
Qed.
Example C53_example : option_map (fun '(st, r) => (make_shortest_path Graph.source 5 (fun _ l => l) 0 3 (d_preds st), make_shortest_paths_dag Graph.source 5 (fun _ l => l) 3 (d_preds st) false, make_shortest_paths_dag Graph.source 5 (fun _ l => rev l) 3 (d_preds st) true)) (ex_run None)
  = Some (Some (Ok [Edge 0 1 2; Edge 1 3 4]), Some [Edge 1 3 4; Edge 0 1 2; Edge 2 1 1; Edge 0 2 1], Some [Edge 1 3 4; Edge 2 1 1; Edge 0 2 1]).
Proof. vm_compute. reflexivity. Qed.
Example C55_example : dijkstra_shortest_path ex_V ex_out Graph.source Graph.target (fun e => Ok (distinguisher e)) (Some Less) (closed_plus 100) 0 100 5 (fun _ l => rev l) 0 3 [] [] [] = Some (Ok (Some [Edge 0 2 1; Edge 2 1 1; Edge 1 3 4])) /\
  dijkstra_shortest_path ex_V ex_out Graph.source Graph.target (fun e => Ok (distinguisher e)) (Some Less) (closed_plus 100) 0 100 5 (fun _ l => rev l) 0 4 [] [] [] = Some (Ok None).
Proof. vm_compute. auto. Qed.
Example C72_example : option_map (fun '(st, r) => d_log st) (ex_run None) =
  Some [DInit 0; DInit 1; DInit 2; DInit 3; DInit 4; DExamine 0; DExamineEdge (Edge 0 1 2); DDiscover 1; DRelaxed (Edge 0 1 2); DExamineEdge (Edge 0 2 1); DDiscover 2; DRelaxed (Edge 0 2 1); DFinish 0;
        DExamine 2; DExamineEdge (Edge 2 1 1); DRelaxed (Edge 2 1 1); DExamineEdge (Edge 2 3 9); DDiscover 3; DRelaxed (Edge 2 3 9); DFinish 2;
        DExamine 1; DExamineEdge (Edge 1 3 4); DRelaxed (Edge 1 3 4); DFinish 1; DExamine 3; DExamineEdge (Edge 3 0 1); DNotRelaxed (Edge 3 0 1); DFinish 3].
Proof. vm_compute. reflexivity. Qed.

(** C53 is false with a cycle of weight 0: there are a graph with non-negative weights, a vertex at distance 1 and an order of the
    sets of edges for which make_shortest_path never ends. *)
Definition zc_edges : list (edge Z) := [Edge 0 1 1; Edge 1 2 0; Edge 2 1 0].
Definition zc_out (u : nat) : list (edge Z) := filter (fun e => Nat.eqb (Graph.source e) u) zc_edges.
Definition zc_V : list nat := [0; 1; 2]%nat.
Theorem C53_zero_cycle_refuted : exists (ord : set_order (edge Z)) st, valid_order ord /\
  weighted_graph zc_V zc_out Graph.source Graph.target (fun e => Ok (distinguisher e)) distinguisher /\
  dijkstra_shortest_paths zc_V zc_out Graph.target (fun e => Ok (distinguisher e)) None (closed_plus 100) 0 100 no_stop 3 0 [] [] [] = Some (st, Done) /\
  dget (d_dist st) 1%nat = Some 1 /\ forall fuel, make_shortest_path Graph.source fuel ord 0 1 (d_preds st) = None.
Proof.
  exists (fun _ l => rev l). eexists. split; [intros n l; apply Permutation_sym, Permutation_rev|]. split; [|split; [vm_compute; reflexivity|split; [vm_compute; reflexivity|]]].
  - intros u e _ I. apply filter_In in I. destruct I as [I S]. apply Nat.eqb_eq in S. split; [exact S|]. repeat (destruct I as [<-|I]; [cbn; split; [tauto|split; [reflexivity|lia]]|]). destruct I.
  - unfold make_shortest_path. intros fuel. match goal with |- context [path_loop _ _ _ _ _ ?p _] => set (pr := p) end.
    assert (G : forall fuel acc, path_loop Graph.source fuel (fun _ l => rev l) 0 1 pr acc = None /\ path_loop Graph.source fuel (fun _ l => rev l) 0 2 pr acc = None).
    { clear fuel. induction fuel as [|fuel IH]; intros acc; [split; reflexivity|]. split; cbn [path_loop Nat.eqb].
      - change (rev (preds_of pr 1)) with [Edge 2%nat 1%nat 0; Edge 0%nat 1%nat 1]. cbn [Graph.source]. apply IH.
      - change (rev (preds_of pr 2)) with [Edge 1%nat 2%nat 0]. cbn [Graph.source]. apply IH. }
    apply G.
Qed.
Print Assumptions C53_zero_cycle_refuted.
(** C54 is false of the vertices that are not below infinity. A path whose weight exceeds infty is not found... *)
Definition big (a b : Z) : nat -> list (edge Z) := fun u => filter (fun e => Nat.eqb (Graph.source e) u) [Edge 0%nat 1%nat a; Edge 1%nat 2%nat b].
Lemma big_graph a b : 0 <= a -> 0 <= b -> weighted_graph zc_V (big a b) Graph.source Graph.target (fun e => Ok (distinguisher e)) distinguisher.
Proof. intros Ha Hb u e _ I. apply filter_In in I. destruct I as [I S]. apply Nat.eqb_eq in S. split; [exact S|]. destruct I as [<-|[<-|[]]]; cbn; (split; [tauto|split; [reflexivity|assumption]]). Qed.
(** the two cases of C53_at_infty: t reached by an edge of weight infty, t only reached above infty *)
Example C53_at_infty_example : exists st st', dijkstra_shortest_paths zc_V (big 60 100) Graph.target (fun e => Ok (distinguisher e)) None (closed_plus 100) 0 100 no_stop 3 0 [] [] [] = Some (st, Done) /\
  dget (d_dist st) 2%nat = Some 100 /\ make_shortest_path Graph.source 4 (fun _ l => l) 0 2 (d_preds st) = Some (Ok [Edge 0%nat 1%nat 60; Edge 1%nat 2%nat 100]) /\
  dijkstra_shortest_paths zc_V (big 60 60) Graph.target (fun e => Ok (distinguisher e)) None (closed_plus 100) 0 100 no_stop 3 0 [] [] [] = Some (st', Done) /\
  dget (d_dist st') 2%nat = Some 100 /\ make_shortest_path Graph.source 4 (fun _ l => l) 0 2 (d_preds st') = Some (Raise IndexError).
Proof. do 2 eexists. repeat (split; [vm_compute; reflexivity|]). vm_compute. reflexivity. Qed.
Theorem C54_above_infty_refuted : exists st p, weighted_graph zc_V (big 60 60) Graph.source Graph.target (fun e => Ok (distinguisher e)) distinguisher /\
  dijkstra_shortest_paths zc_V (big 60 60) Graph.target (fun e => Ok (distinguisher e)) None (closed_plus 100) 0 100 no_stop 3 0 [] [] [] = Some (st, Done) /\
  shortest (big 60 60) Graph.target distinguisher 0 p 2 /\ p <> [] /\ make_shortest_paths_dag Graph.source 3 (fun _ l => l) 2 (d_preds st) false = Some [].
Proof.
  eexists. exists [Edge 0%nat 1%nat 60; Edge 1%nat 2%nat 60]. split; [apply big_graph; lia|]. split; [vm_compute; reflexivity|]. split; [|split; [discriminate|vm_compute; reflexivity]].
  split; [econstructor; [left; reflexivity|econstructor; [left; reflexivity|constructor]]|].
  intros q W. inversion W as [|? e q' ? I W']; subst. destruct I as [<-|[]]. cbn in W'. inversion W' as [|? e q'' ? I W'']; subst. destruct I as [<-|[]]. cbn in W''. inversion W'' as [|? e q3 ? I W3]; subst; [lia|]. destruct I.
Qed.
(** ... and a vertex at distance infty may have predecessors: t is not reachable, yet the result is not empty. *)
Theorem C54_at_infty_refuted : exists st, weighted_graph zc_V (big 60 100) Graph.source Graph.target (fun e => Ok (distinguisher e)) distinguisher /\
  dijkstra_shortest_paths zc_V (big 60 100) Graph.target (fun e => Ok (distinguisher e)) None (closed_plus 100) 0 100 no_stop 3 0 [] [] [] = Some (st, Done) /\
  dget (d_dist st) 2%nat = Some 100 /\ make_shortest_paths_dag Graph.source 3 (fun _ l => l) 2 (d_preds st) false = Some [Edge 1%nat 2%nat 100; Edge 0%nat 1%nat 60].
Proof. eexists. split; [apply big_graph; lia|]. vm_compute. auto. Qed.
Print Assumptions C54_above_infty_refuted. Print Assumptions C54_at_infty_refuted.
