(** Specification of reverse_graph interleaved with the other methods: an edge is seen in its stored direction, or in the
    other one when the number of calls of reverse_graph is odd. *)
From Verif Require Import Base Graph GraphSpec Reverse.

Definition seen_source (flipped : bool) (e : gedge) : nat := if flipped then target e else source e.
Definition seen_target (flipped : bool) (e : gedge) : nat := if flipped then source e else target e.
(** The state: the stored graph, and whether it is seen reversed. *)
Definition r_step (s : agraph * bool) (op : rop) : (agraph * bool) * gout :=
  match op with
  | RReverse => ((fst s, negb (snd s)), OutUnit)
  | ROp op => ((fst (i_step (fst s) op), snd s), snd (i_step (fst s) op))
  end.
(** Programs whose add_edge calls name two existing vertices. *)
Fixpoint r_closed (s : agraph * bool) (ops : list rop) : Prop :=
  match ops with
  | [] => True
  | op :: ops' =>
      (match op with ROp (OpAddEdge u v) => In u (verts (fst s)) /\ In v (verts (fst s)) | _ => True end) /\
      r_closed (fst (r_step s op)) ops'
  end.
(** The calls other than reverse_graph, and their results. *)
Definition plain_ops (ops : list rop) : list gop := flat_map (fun op => match op with ROp op => [op] | RReverse => [] end) ops.
Fixpoint plain_outs (ops : list rop) (outs : list gout) : list gout :=
  match ops, outs with
  | ROp _ :: ops', o :: outs' => o :: plain_outs ops' outs'
  | RReverse :: ops', _ :: outs' => plain_outs ops' outs'
  | _, _ => []
  end.
(** The other description of an undirected edge. *)
Definition mirror (e : gedge) : gedge := Edge (target e) (source e) (distinguisher e).
