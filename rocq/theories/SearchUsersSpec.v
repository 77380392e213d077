(** What is said of topological_sort, strong_components, cut, graph_extract and graph_copy. *)
From Verif Require Import Base SearchSpec.

Section Arc.
  Context {E : Type}.
  Variables (out_edges : nat -> list E) (target : E -> nat).
  (** there is an edge from u to v *)
  Definition arc (u v : nat) : Prop := exists e, In e (out_edges u) /\ target e = v.
  (** v is reached from a vertex of S *)
  Definition reached (S : list nat) (v : nat) : Prop := exists s, In s S /\ steps arc s v.
  Definition acyclic_from (S : list nat) : Prop := forall v, reached S v -> ~ plus arc v v.
  (** u and v reach each other *)
  Definition connected (u v : nat) : Prop := steps arc u v /\ steps arc v u.
  Definition sink (u : nat) : Prop := out_edges u = [].
  (** the successive vertices of a path starting at u *)
  Fixpoint path (u : nat) (p : list nat) : Prop :=
    match p with [] => True | v :: p' => arc u v /\ path v p' end.
End Arc.
(** u comes before v in l *)
Definition before {X} (l : list X) (u v : X) : Prop := exists l1 l2 l3, l = l1 ++ u :: l2 ++ v :: l3.
