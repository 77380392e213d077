(** Specification of the cost of the edit distances (C131). *)
From Verif Require Import Base EditCost.

(** the pairs (i, j) for which the body of compute is executed: the calls whose value was not known *)
Definition computed (l : list call) : list (nat * nat) := map fst (filter (fun c => negb (snd c)) l).
(** x and y have no common letter *)
Definition no_common {A} (x y : list A) : Prop := forall a, In a x -> ~ In a y.
