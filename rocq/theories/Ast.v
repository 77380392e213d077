(** Model of the abstract syntax trees of src/pybgl/shunting_yard_postfix.py: Ast, RpnDequeAst, shunting_yard_ast. *)
From Coq Require Import String.
From Verif Require Import Graph ShuntingYard Str Base.
Open Scope string_scope.
Open Scope nat_scope.
Open Scope list_scope.

Section Ast.
  Context {T : Type} `{EqDec T}.

  (** Ast, shunting_yard_postfix.py:490-519: a DirectedGraph, the token of each vertex, and the attribute root. The map
      of tokens is a defaultdict without default: reading a missing key raises KeyError. *)
  Record ast := mkAst { ast_graph : graph; ast_label : dict nat T; ast_root : option nat }.
  (** [Ast()]. (A positive [num_vertices] is not modelled: Graph.__init__ calls add_vertex without token.) *)
  (** Ast.__init__, shunting_yard_postfix.py:495-519. *)
  Definition Ast_init : ast := mkAst (G_init 0) [] None.
  (** add_vertex, shunting_yard_postfix.py:521-533 *)
  Definition Ast_add_vertex (t : ast) (a : T) : ast * res nat :=
    match G_add_vertex (ast_graph t) with
    | (g, Ok u) => (mkAst g (dset (ast_label t) u a) (ast_root t), Ok u)
    | (g, Raise e) => (mkAst g (ast_label t) (ast_root t), Raise e)
    end.
  (** Graph.add_edge, graph.py:218-241 (inherited) *)
  Definition Ast_add_edge (t : ast) (u v : nat) : ast * res unit :=
    match G_add_edge (ast_graph t) u v with
    | (g, Ok _) => (mkAst g (ast_label t) (ast_root t), Ok tt)
    | (g, Raise e) => (mkAst g (ast_label t) (ast_root t), Raise e)
    end.
  (** symbol, shunting_yard_postfix.py:545-556 *)
  Definition Ast_symbol (t : ast) (u : nat) : res T :=
    match dget (ast_label t) u with Some a => Ok a | None => Raise KeyError end.
  (** children, shunting_yard_postfix.py:558-570 (a generator) *)
  Definition Ast_children (t : ast) (u : nat) : list nat := map target (G_out_edges (ast_graph t) u).

  (** RpnDequeAst: the tree and the deque of vertices, its right end first. *)
  Variables lpar rpar : T.
  Variable map_operators : dict T Op.
  (** RpnDequeOperation.append, shunting_yard_postfix.py:466-487, with RpnDequeAst.on_append (621-633) and on_operation (635-652). The state
      reached when it raises is dropped: shunting_yard_ast then returns nothing. *)
  Definition push_ast (s : ast * list nat) (a : T) : res (ast * list nat) :=
    let '(t, deque) := s in
    match Ast_add_vertex t a with
    | (_, Raise e) => Raise e
    | (t, Ok u) =>
        match dget map_operators a with
        | None => Ok (t, u :: deque)
        | Some op =>
            rbind (pops (cardinality op) deque []) (fun '(vs, deque) =>
            match foreach (fun t v => Ast_add_edge t u v) t vs with
            | (_, Raise e) => Raise e
            | (t, Ok _) => Ok (t, u :: deque)
            end)
        end
    end.
  (** shunting_yard_ast, shunting_yard_postfix.py:655-680. The root is returned, the attribute root of the tree is not set. *)
  Definition shunting_yard_ast (expression : list T) : res (ast * nat) :=
    rbind (shunting_yard_postfix lpar rpar map_operators push_ast expression (Ast_init, [])) (fun '(t, ret) =>
    match ret with [root] => Ok (t, root) | _ => Raise AssertionError end).
End Ast.
Arguments ast : clear implicits.

(** Ast.to_expr, shunting_yard_postfix.py:572-596, when the tokens are strings. *)
Section ToExpr.
  (** to_expr_rec, shunting_yard_postfix.py:581-593: shunting_yard_postfix.py:587 subscripts a generator, which raises TypeError. [a.join(l)]: *)
  Fixpoint join (a : str) (l : list str) : str :=
    match l with [] => [] | [x] => x | x :: l' => x ++ a ++ join a l' end.
  (** The generator of the strings of the children, shunting_yard_postfix.py:589-593, evaluated left to right; an exception ends it. *)
  Fixpoint mapM (f : nat -> res str) (l : list nat) : res (list str) :=
    match l with [] => Ok [] | u :: l' => rbind (f u) (fun x => rbind (mapM f l') (fun xs => Ok (x :: xs))) end.
  (** the recursion is bounded by [fuel]; exhausting it is RecursionError in Python, here RuntimeError, its parent class *)
  (** to_expr_rec, shunting_yard_postfix.py:581-593. *)
  Fixpoint to_expr_rec (fuel : nat) (t : ast str) (u : nat) : res str :=
    match fuel with
    | 0 => Raise RuntimeError
    | S fuel' =>
        rbind (Ast_symbol t u) (fun a =>
        match G_out_degree (ast_graph t) u with
        | 0 => Ok a
        | 1 => Raise TypeError
        | _ => rbind (mapM (to_expr_rec fuel' t) (Ast_children t u)) (fun l => Ok (lit "(" ++ join a l ++ lit ")"))
        end)
    end.
  (** shunting_yard_postfix.py:594-596: [if self.root] is true of any vertex but 0; [symbol(None)] raises KeyError *)
  Definition to_expr (fuel : nat) (t : ast str) : res str :=
    match ast_root t with
    | None => Raise KeyError
    | Some (S _) => Raise RuntimeError
    | Some 0 => to_expr_rec fuel t 0
    end.
End ToExpr.
