(** Reachability, and what is read in the sequence of calls received by a visitor. *)
From Verif Require Import Base Search.

(** [steps R x y]: y is reached from x by following R any number of times; [plus R]: at least once. *)
Inductive steps {X} (R : X -> X -> Prop) : X -> X -> Prop :=
| steps_refl x : steps R x x
| steps_step x y z : R x y -> steps R y z -> steps R x z.
Definition plus {X} (R : X -> X -> Prop) (x z : X) : Prop := exists y, R x y /\ steps R y z.
(** the length of the walk *)
Inductive walk {X} (R : X -> X -> Prop) : nat -> X -> X -> Prop :=
| walk_0 x : walk R 0 x x
| walk_S n x y z : R x y -> walk R n y z -> walk R (S n) x z.

Section Graph.
  Context {E : Type}.
  Variables (out_edges : nat -> list E) (target : E -> nat) (if_push : E -> bool).
  (** [next u v]: there is an accepted edge from u to v *)
  Definition next (u v : nat) : Prop := exists e, In e (out_edges u) /\ if_push e = true /\ target e = v.
  (** only finitely many vertices are targets of edges *)
  Definition finite_graph : Prop := exists l, forall u e, In e (out_edges u) -> In (target e) l.
  (** [V] is a set of vertices that the edges do not leave *)
  Definition closed_set (V : list nat) : Prop := forall u v, In u V -> next u v -> In v V.
End Graph.

Section Trace.
  Context {E : Type}.
  Implicit Types t : list (event E).
  (** the arguments of the calls of each kind, in order *)
  Definition discovered t : list nat := flat_map (fun x => match x with Discover v => [v] | _ => [] end) t.
  Definition finished t : list nat := flat_map (fun x => match x with Finish v => [v] | _ => [] end) t.
  Definition examined t : list E := flat_map (fun x => match x with Examine e => [e] | _ => [] end) t.
  Definition tree_edges t : list E := flat_map (fun x => match x with Tree e => [e] | _ => [] end) t.
  Definition back_edges t : list E := flat_map (fun x => match x with Back e => [e] | _ => [] end) t.
  Definition forward_or_cross_edges t : list E := flat_map (fun x => match x with ForwardOrCross e => [e] | _ => [] end) t.
  (** [down t a b]: b was discovered from a by a tree edge *)
  Definition down (source target : E -> nat) t (a b : nat) : Prop := exists e, In e (tree_edges t) /\ source e = a /\ target e = b.
  Definition asked t : list E := flat_map (fun x => match x with Ask e => [e] | _ => [] end) t.
End Trace.
