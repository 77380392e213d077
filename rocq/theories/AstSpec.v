(** Syntax trees, and when a graph with labels is such a tree. *)
From Verif Require Import Graph ShuntingYard SYSpec Str Base Ast.

Section Spec.
  Context {T : Type} `{EqDec T}.
  (** a syntax tree: a token and its operands, from left to right *)
  Inductive node := Node (a : T) (l : list node).

  (** the syntax tree of an expression (no [Suffix]: that form is for regular expressions) *)
  Fixpoint syntax (t : tree (T := T)) : node :=
    match t with
    | Leaf a => Node a []
    | Suffix x _ => syntax x
    | Bin l o r => Node o [syntax l; syntax r]
    | Post x o | Pre o x => Node o [syntax x]
    | Par x => syntax x
    end.
  (** the operators take the number of operands given by the table *)
  Fixpoint arities (ops : dict T Op) (t : tree (T := T)) : Prop :=
    match t with
    | Leaf _ => True
    | Suffix _ _ => False
    | Bin l o r => (exists p, dget ops o = Some p /\ cardinality p = 2) /\ arities ops l /\ arities ops r
    | Post x o | Pre o x => (exists p, dget ops o = Some p /\ cardinality p = 1) /\ arities ops x
    | Par x => arities ops x
    end.

  (** the tokens in postfix order; the number of operands of each token is that of the table *)
  Fixpoint post_order (n : node) : list T := match n with Node a l => flat_map post_order l ++ [a] end.
  Inductive ranked (ops : dict T Op) : node -> Prop :=
  | Ranked a l : match dget ops a with None => l = [] | Some p => length l = cardinality p end ->
      (forall x, In x l -> ranked ops x) -> ranked ops (Node a l).
  (** each node has no child or two children (resp. some node has exactly one child) *)
  Inductive binary : node -> Prop :=
  | BinLeaf a : binary (Node a [])
  | BinNode a x y : binary x -> binary y -> binary (Node a [x; y]).
  Inductive has_unary : node -> Prop :=
  | HereUnary a x : has_unary (Node a [x])
  | BelowUnary a l x : In x l -> has_unary x -> has_unary (Node a l).

  Fixpoint size (n : node) : nat := match n with Node _ l => S (fold_right (fun x s => size x + s) 0 l) end.

  (** The part of the graph [t] below vertex [u] is the tree [n]: the token of [u] is that of [n], the children of [u]
      are, in order, the roots of the subtrees. [us] lists the vertices met, children before their parent. *)
  Inductive is_tree (t : ast T) : nat -> node -> list nat -> Prop :=
  | IsTree u a l us : dget (ast_label t) u = Some a -> are_trees t (map target (G_out_edges (ast_graph t) u)) l us ->
      is_tree t u (Node a l) (us ++ [u])
  with are_trees (t : ast T) : list nat -> list node -> list nat -> Prop :=
  | AreNil : are_trees t [] [] []
  | AreCons u us' n ns l1 l2 : is_tree t u n l1 -> are_trees t us' ns l2 -> are_trees t (u :: us') (n :: ns) (l1 ++ l2).
End Spec.
Arguments node : clear implicits.
