(** Theorems C112 on dijkstra_shortest_paths with any graph, weights, comparison, combination, visitor and initial maps. *)
From Verif Require Import Graph Search Heap HeapProofs Dijkstra DijkstraSpec DijkstraAnySpec DijkstraAnyProofs Base BaseProofs.

(** As stated it is false: a loop on the source that improves its distance makes it examined twice. *)
Theorem C112_examined_once_refuted : exists (e : edge Z) st,
  dijkstra_shortest_paths [0] (fun u => if u =? 0 then [e] else []) Graph.target (fun e => Ok (distinguisher e)) None (closed_plus 100) 0%Z 100%Z no_stop 2 0 [] [] [] = Some (st, Done) /\
  examined (d_log st) = [0; 0].
Proof. exists (Edge 0 0 (-1)%Z). eexists. split; vm_compute; reflexivity. Qed.

Section T.
  Context {E D : Type} {EE : EqDec E} {ED : EqDec D} {LD : Distance D}.
  Variables (V : list nat) (out_edges : nat -> list E) (target : E -> nat) (pmap_eweight : E -> res D).
  Variable compare_arg : option (D -> D -> bool).
  Variables (combine : D -> D -> D) (zero infty : D).
  Variable raises : devent E -> bool.
  Variables (s : nat) (dist : dict nat D) (preds : dict nat (list E)) (colors0 : colors).
  Local Notation walk := (walk_of out_edges target).
  Local Notation first := (first_distance V zero infty dist s).
  Local Notation run fuel := (dijkstra_shortest_paths V out_edges target pmap_eweight compare_arg combine zero infty raises fuel s dist preds colors0).

  (** The call ends, after at most one iteration per vertex or key of pmap_vdist, and one more. A vertex is discovered at
      most once, and only what is discovered is examined, but for the first examination of s. The exceptions are that of the visitor, after which
      nothing is called, and those due to an edge out of an examined vertex without weight or with an unknown target, or to the source. *)
  Theorem C112_ends fuel : length (sof (dkeys dist ++ V)) + 1 <= fuel ->
    exists st o, run fuel = Some (st, o) /\
      NoDup (discovered (d_log st)) /\
      (exists waiting, Permutation (waiting ++ examined (d_log st)) (s :: discovered (d_log st)) /\ (o = Done -> waiting = [])) /\
      (forall v, In v (examined (d_log st)) \/ In v (discovered (d_log st)) -> first v <> None /\ exists p, walk s p v) /\
      match o with
      | Done => first s <> None /\ Forall (fun x => raises x = false) (d_log st) /\
          forall u e, In u (examined (d_log st)) -> In e (out_edges u) -> first (target e) <> None /\ exists x, pmap_eweight e = Ok x
      | Stopped => exists l x, d_log st = l ++ [x] /\ raises x = true /\ Forall (fun x => raises x = false) l
      | Error x => Forall (fun x => raises x = false) (d_log st) /\
          (first s = None /\ x = KeyError \/
           exists l u e, d_log st = l ++ [DExamineEdge e] /\ In u (examined l) /\ In e (out_edges u) /\
             (first (target e) = None /\ x = KeyError \/ first (target e) <> None /\ pmap_eweight e = Raise x))
      end.
  Proof.
    intros L. destruct (run_inv V out_edges target pmap_eweight compare_arg combine zero infty raises s dist preds colors0 fuel L) as (st & o & R & H). exists st, o. split; [exact R|].
    destruct H as [(-> & X & Dc & _ & W & _)|[(-> & Fs & X & Dc & _ & W & _)|(Fs & I & W & DN)]].
    - rewrite X, Dc. split; [constructor|]. split; [exists [s]; split; [reflexivity|discriminate]|]. split; [intros v [[]|[]]|]. exact W.
    - rewrite X, Dc. split; [constructor|]. split; [exists [s]; split; [reflexivity|discriminate]|]. split; [intros v [[]|[]]|]. split; [exact W|]. left. auto.
    - split; [apply I|]. split.
      { exists (elems (d_heap st)). split; [apply I|]. intros Z. destruct (DN Z) as [Z1 _]. unfold elems. rewrite Z1. reflexivity. }
      split.
      { intros v Hv. assert (Hs : v = s \/ In v (discovered (d_log st))).
        { destruct Hv as [Hv|Hv]; [|auto]. assert (Z : In v (s :: discovered (d_log st))) by (apply (Permutation_in _ (i_perm _ _ _ _ _ _ _ _ _ _ _ _ I)), in_or_app; auto).
          destruct Z as [Z|Z]; auto. }
        assert (K : first v <> None) by (destruct Hs as [->|Hs]; [exact Fs|apply (i_dk _ _ _ _ _ _ _ _ _ _ _ _ I v Hs)]). split; [exact K|].
        destruct (dget (d_dist st) v) as [d|] eqn:G; [|apply (i_keys _ _ _ _ _ _ _ _ _ _ _ _ I) in G; contradiction].
        destruct (i_walk _ _ _ _ _ _ _ _ _ _ _ _ I v d Hs G) as (d0 & p & _ & Wp & _). eauto. }
      destruct o; cbn [why] in W.
      + split; [exact Fs|]. split; [exact W|]. apply (DN eq_refl).
      + exact W.
      + destruct W as (W & u & e & l & H). split; [exact W|]. right. exists l, u, e. exact H.
  Qed.

  (** s is examined twice at most, and once if no loop on s improves its first distance; the other vertices are examined once at most *)
  Theorem C112_examined fuel st o : length (sof (dkeys dist ++ V)) + 1 <= fuel -> run fuel = Some (st, o) ->
    (forall v, v <> s -> count_occ Nat.eq_dec (examined (d_log st)) v <= 1) /\ count_occ Nat.eq_dec (examined (d_log st)) s <= 2 /\
    ((forall e x d, In e (out_edges s) -> target e = s -> first s = Some d -> pmap_eweight e = Ok x -> compare compare_arg (combine d x) d = false) -> NoDup (examined (d_log st))).
  Proof.
    intros L R'. destruct (run_inv V out_edges target pmap_eweight compare_arg combine zero infty raises s dist preds colors0 fuel L) as (st' & o' & R & H). rewrite R in R'. injection R' as -> ->.
    assert (G : NoDup (discovered (d_log st)) /\ (exists waiting, Permutation (waiting ++ examined (d_log st)) (s :: discovered (d_log st))) /\
                (In s (discovered (d_log st)) -> better_loop V out_edges target pmap_eweight compare_arg combine zero infty s dist)).
    { destruct H as [(_ & X & Dc & _)|[(_ & _ & X & Dc & _)|(_ & I & _)]].
      - rewrite X, Dc. split; [constructor|]. split; [exists [s]; reflexivity|intros []].
      - rewrite X, Dc. split; [constructor|]. split; [exists [s]; reflexivity|intros []].
      - split; [apply I|]. split; [eexists; apply I|apply I]. }
    destruct G as (ND & (q & P) & BL). pose proof (proj1 (Permutation_count_occ Nat.eq_dec _ _) P) as CO. pose proof (proj1 (NoDup_count_occ Nat.eq_dec _) ND) as CN. split; [|split].
    - intros v N. specialize (CO v). rewrite count_occ_app in CO. cbn in CO. destruct (Nat.eq_dec s v); [congruence|]. specialize (CN v). lia.
    - specialize (CO s). rewrite count_occ_app in CO. cbn in CO. destruct (Nat.eq_dec s s); [|congruence]. specialize (CN s). lia.
    - intros NB. assert (Ns : ~ In s (discovered (d_log st))).
      { intros Z. destruct (BL Z) as (e & x & d & B1 & B2 & B3 & B4 & B5). rewrite (NB e x d B1 B2 B3 B4) in B5. discriminate. }
      assert (N2 : NoDup (s :: discovered (d_log st))) by (constructor; assumption). apply (Permutation_NoDup (Permutation_sym P)) in N2. apply NoDup_app_inv in N2. tauto.
  Qed.

  (** After a complete run, a vertex has a distance as after the initialization or the cost of a walk from s; and the recorded
      edges that were not given by the caller lead to their vertex from an examined one. *)
  Theorem C112_distances fuel st : length (sof (dkeys dist ++ V)) + 1 <= fuel -> run fuel = Some (st, Done) ->
    (forall v, dget (d_dist st) v = None <-> ~ In v V /\ dget dist v = None) /\
    (forall v d, dget (d_dist st) v = Some d -> first v = Some d \/
       exists d0 p, first s = Some d0 /\ walk s p v /\ costs pmap_eweight combine d0 p d) /\
    (forall v e, In e (preds_of (d_preds st) v) -> In e (preds_of preds v) \/ target e = v /\ exists u, In u (examined (d_log st)) /\ In e (out_edges u)).
  Proof.
    intros L R'. destruct (run_inv V out_edges target pmap_eweight compare_arg combine zero infty raises s dist preds colors0 fuel L) as (st' & o' & R & H). rewrite R in R'. injection R' as -> ->.
    destruct H as [(Z & _)|[(Z & _)|(Fs & I & _)]]; [discriminate..|]. split; [|split; [apply (i_dist _ _ _ _ _ _ _ _ _ _ _ _ I)|apply (i_preds _ _ _ _ _ _ _ _ _ _ _ _ I)]].
    intros v. rewrite (i_keys _ _ _ _ _ _ _ _ _ _ _ _ I v). unfold first_distance. destruct (mem_reflect v V) as [Iv|Iv]; [split; [discriminate|tauto]|tauto].
  Qed.
End T.
Print Assumptions C112_examined_once_refuted. Print Assumptions C112_ends. Print Assumptions C112_examined. Print Assumptions C112_distances.

(** Concrete cases: negative weights (a negative cycle 1 -> 2 -> 1), a target that is not a vertex, an edge without weight, a visitor that stops *)
Definition any_run (V : list nat) (l : list (edge (option Z))) raises s :=
  dijkstra_shortest_paths V (fun u => filter (fun e => Graph.source e =? u) l) Graph.target
    (fun e => match distinguisher e with Some x => Ok x | None => Raise KeyError end) None (closed_plus 100) 0%Z 100%Z raises (length V + 1) s [] [] [].
Example C112_negative : option_map (fun '(st, o) => (examined (d_log st), map (dget (d_dist st)) [0; 1; 2], o)) (any_run [0; 1; 2] [Edge 0 1 (Some 1%Z); Edge 1 2 (Some (-3)%Z); Edge 2 1 (Some 1%Z)] no_stop 0)
  = Some ([0; 1; 2], [Some 0%Z; Some (-1)%Z; Some (-2)%Z], Done).
Proof. vm_compute. reflexivity. Qed.
Example C112_unknown : map (fun r => option_map (fun '(st, o) => (examined (d_log st), o)) r)
  [any_run [0; 1] [Edge 0 1 (Some 1%Z); Edge 1 7 (Some 2%Z)] no_stop 0; any_run [0; 1] [Edge 0 1 None] no_stop 0; any_run [0; 1] [Edge 0 1 (Some 1%Z)] no_stop 5;
   any_run [0; 1] [Edge 0 1 (Some 1%Z)] (fun x => match x with DDiscover 1 => true | _ => false end) 0]
  = [Some ([0; 1], Error KeyError); Some ([0], Error KeyError); Some ([], Error KeyError); Some ([0], Stopped)].
Proof. vm_compute. reflexivity. Qed.
