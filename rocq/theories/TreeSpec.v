(** Rooted trees, for the traversals dfs_tree and bfs_tree. *)
From Verif Require Import Base.

Inductive tree := Node (v : nat) (children : list tree).
Definition root (t : tree) : nat := let '(Node v _) := t in v.
Definition children (t : tree) : list tree := let '(Node _ l) := t in l.
Fixpoint nodes (t : tree) : list nat := let '(Node v l) := t in v :: flat_map nodes l.
(** the nodes with their depths, the root having depth d *)
Fixpoint depths (d : nat) (t : tree) : list (nat * nat) := let '(Node v l) := t in (v, d) :: flat_map (depths (S d)) l.
Inductive subtree : tree -> tree -> Prop :=
| sub_refl t : subtree t t
| sub_child s c v l : In c l -> subtree s c -> subtree s (Node v l).
(** t is the tree spanned by the out-edges from its root: the edges leaving a node lead to its children, in this order *)
Definition spans {E} (out_edges : nat -> list E) (target : E -> nat) (t : tree) : Prop :=
  forall s, subtree s t -> map target (out_edges (root s)) = map root (children s).
