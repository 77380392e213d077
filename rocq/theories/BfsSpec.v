(** What a breadth-first search is, said of the sequence of the calls that its visitor receives. *)
From Verif Require Import Base Search SearchSpec.

Section Spec.
  Context {E : Type}.
  Variables (out_edges : nat -> list E) (target : E -> nat) (if_push : E -> bool).

  (** the calls made on a list of edges *)
  Inductive on_edges : list E -> list (event E) -> Prop :=
  | on_nil : on_edges [] []
  | on_rejected e l t : if_push e = false -> on_edges l t -> on_edges (e :: l) (Ask e :: t)
  | on_tree e l t : if_push e = true -> on_edges l t -> on_edges (e :: l) (Ask e :: Examine e :: Tree e :: Discover (target e) :: t)
  | on_gray e l t : if_push e = true -> on_edges l t -> on_edges (e :: l) (Ask e :: Examine e :: NonTree e :: GrayTarget e :: t)
  | on_black e l t : if_push e = true -> on_edges l t -> on_edges (e :: l) (Ask e :: Examine e :: NonTree e :: BlackTarget e :: t).
  (** the calls made while the vertices [l] are taken one after the other *)
  Inductive on_vertices : list nat -> list (event E) -> Prop :=
  | on_none : on_vertices [] []
  | on_vertex u l t t' : on_edges (out_edges u) t -> on_vertices l t' -> on_vertices (u :: l) (ExamineVertex u :: t ++ Finish u :: t').

  (** The call [x] is right after the calls [t]: the examined vertex is the first one of the queue (the sources, the last
      one first, then the targets of the tree edges) which is not finished; a vertex is discovered once; an edge is a
      tree edge when its target is not discovered, and otherwise its target is gray until it is finished, black then. *)
  Definition legal (sources : list nat) (t : list (event E)) (x : event E) : Prop :=
    match x with
    | ExamineVertex u => exists l, rev sources ++ map target (tree_edges t) = finished t ++ u :: l
    | Discover v => ~ In v (discovered t)
    | Tree e => ~ In (target e) (discovered t)
    | GrayTarget e => In (target e) (discovered t) /\ ~ In (target e) (finished t)
    | BlackTarget e => In (target e) (finished t)
    | _ => True
    end.
End Spec.
