(** Specification of the best paths, for any way to compare and combine the weights. *)
From Verif Require Import Base DijkstraSpec.

(** [lt a b]: a is strictly better than b. A strict weak order: the distances are ranked, maybe with ties. *)
Record ranking {D} (lt : D -> D -> bool) : Prop := {
  rk_irrefl : forall a, lt a a = false;
  rk_trans : forall a b c, lt a b = true -> lt b c = true -> lt a c = true;
  rk_ties : forall a b c, lt a b = false -> lt b c = false -> lt a c = false
}.

Section S.
  Context {E D : Type}.
  Variables (lt : D -> D -> bool) (combine : D -> D -> D) (zero infty : D).
  Variables (out_edges : nat -> list E) (target : E -> nat) (w : E -> D).
  (** the weights met along a walk are combined from left to right, from [zero] *)
  Definition cost_from (a : D) (p : list E) : D := fold_left (fun d e => combine d (w e)) p a.
  Definition cost (p : list E) : D := cost_from zero p.
  (** [p] is a best path from s to t: no walk is strictly better *)
  Definition best (s : nat) (p : list E) (t : nat) : Prop := walk_of out_edges target s p t /\ forall q, walk_of out_edges target s q t -> lt (cost q) (cost p) = false.
  (** [d] is the cost of a best path from s to v, if it is better than [infty]; otherwise it is [infty] and no walk is better than [infty] *)
  Definition best_cost_is (s v : nat) (d : D) : Prop :=
    (lt d infty = true /\ exists p, best s p v /\ cost p = d) \/ (d = infty /\ forall p, walk_of out_edges target s p v -> lt (cost p) infty = false).

  (** Combining a distance between zero and infty with the weight x does not improve it, and respects the ranking;
      what is not better than infty stays so. *)
  Record a_weight (x : D) : Prop := {
    aw_ext : forall a, lt a zero = false -> lt a infty = true -> lt (combine a x) a = false;
    aw_mono : forall a b, lt a zero = false -> lt b a = false -> lt b infty = true -> lt (combine b x) (combine a x) = false;
    aw_top : forall a, lt a infty = false -> lt (combine a x) infty = false
  }.
  (** a finite graph, with such weights *)
  Definition ranked_graph (V : list nat) (source : E -> nat) (pmap_eweight : E -> res D) : Prop :=
    forall u e, In u V -> In e (out_edges u) -> source e = u /\ In (target e) V /\ pmap_eweight e = Ok (w e) /\ a_weight (w e).
  (** going around a cycle makes a path strictly worse *)
  Definition worsening_cycles (V : list nat) : Prop :=
    forall u p a, In u V -> walk_of out_edges target u p u -> p <> [] -> lt a zero = false -> lt a infty = true -> lt a (cost_from a p) = true.
End S.
