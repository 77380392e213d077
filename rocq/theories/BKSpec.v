(** Specification of nearest neighbour search. *)
From Verif Require Import Base Automaton SearchSpec BKTree.

(** Metrics with natural values. *)
Definition metric {X} (d : X -> X -> nat) : Prop :=
  (forall x y, d x y = 0 <-> x = y) /\ (forall x y, d x y = d y x) /\ (forall x y z, d x z <= d x y + d y z).

(** [r] is a right answer to: which element of [S] is the nearest to [w], not further than [d_max]? *)
Definition nearest_of {X} (d : X -> X -> nat) (S : X -> Prop) (w : X) (d_max : nat) (r : option (X * nat)) : Prop :=
  match r with
  | Some (x, n) => S x /\ n = d w x /\ n <= d_max /\ forall y, S y -> n <= d w y
  | None => forall y, S y -> d_max < d w y
  end.
Definition nearest {X} (d : X -> X -> nat) (l : list X) := nearest_of d (fun x => In x l).

(** the elements in the nodes under the node [r], [r] included *)
Definition below {X} (t : bktree X) (r : nat) (y : X) : Prop :=
  exists v, steps (fun a b => exists d, A_delta (bk_aut t) a d = Some b) r v /\ dget (bk_element t) v = Some y.
(** from the node [a], the node [b] is next on the way to the place of [w] *)
Definition on_way {X} (d : X -> X -> nat) (t : bktree X) (w : X) (a b : nat) : Prop :=
  exists x, dget (bk_element t) a = Some x /\ d w x <> 0 /\ A_delta (bk_aut t) a (d w x) = Some b.
