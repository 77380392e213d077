(** Specification of shortest paths. *)
From Coq Require Import ZArith.
From Verif Require Import Base.

Section S.
  Context {E : Type}.
  Variables (out_edges : nat -> list E) (target : E -> nat) (w : E -> Z).
  (** the walks of the graph, as lists of edges, and their weight *)
  Inductive walk_of : nat -> list E -> nat -> Prop :=
  | walk_nil u : walk_of u [] u
  | walk_cons u e p v : In e (out_edges u) -> walk_of (target e) p v -> walk_of u (e :: p) v.
  Definition weight (p : list E) : Z := fold_right (fun e k => (w e + k)%Z) 0%Z p.
  (** [p] is a shortest path from s to t *)
  Definition shortest (s : nat) (p : list E) (t : nat) : Prop := walk_of s p t /\ forall q, walk_of s q t -> (weight p <= weight q)%Z.
  (** [d] is the least weight of the walks from s to v, if it is below [infty], and [infty] otherwise *)
  Definition distance_is (infty : Z) (s v : nat) (d : Z) : Prop :=
    ((d < infty)%Z /\ exists p, shortest s p v /\ weight p = d) \/ (d = infty /\ forall p, walk_of s p v -> (infty <= weight p)%Z).
End S.
(** A finite graph with non-negative weights: [V] contains the ends of the edges, and [w] are the weights in the property map. *)
Definition weighted_graph {E} (V : list nat) (out_edges : nat -> list E) (source target : E -> nat) (pmap_eweight : E -> res Z) (w : E -> Z) : Prop :=
  forall u e, In u V -> In e (out_edges u) -> source e = u /\ In (target e) V /\ pmap_eweight e = Ok (w e) /\ (0 <= w e)%Z.
(** the weights are positive, or at least those of the cycles *)
Definition positive_cycles {E} (V : list nat) (out_edges : nat -> list E) (target : E -> nat) (w : E -> Z) : Prop :=
  forall u p, In u V -> walk_of out_edges target u p u -> p <> [] -> (0 < weight w p)%Z.
