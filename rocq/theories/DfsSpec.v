(** What a depth-first search is, said of the sequence of the calls that its visitor receives. *)
From Verif Require Import Base Search SearchSpec.

Section Spec.
  Context {E : Type}.
  Variables (out_edges : nat -> list E) (source target : E -> nat) (if_push : E -> bool).

  (** the vertices discovered and not finished yet, the last one first *)
  Definition opened (p : list (event E)) : list nat :=
    fold_left (fun s x => match x with Discover v => v :: s | Finish _ => tl s | _ => s end) p [].

  (** [legal p x r]: the call [x] is right after the calls [p] and before the calls [r].
      - a search starts when no vertex is opened, at a vertex not discovered yet;
      - a vertex is discovered once;
      - an edge is examined from the last opened vertex; it is a tree edge, and its target is discovered at
        once, when its target has not been discovered; a back edge when its target is opened; a forward or
        cross edge when its target is finished;
      - the last opened vertex is finished when its accepted out-edges have been examined, in their order. *)
  Definition legal (p : list (event E)) (x : event E) (r : list (event E)) : Prop :=
    match x with
    | Start v => opened p = [] /\ ~ In v (discovered p) /\ exists r', r = Discover v :: r'
    | Discover v => ~ In v (discovered p)
    | Examine e => hd_error (opened p) = Some (source e) /\ exists r',
        (r = Tree e :: Discover (target e) :: r' /\ ~ In (target e) (discovered p)) \/
        (r = Back e :: r' /\ In (target e) (opened p)) \/
        (r = ForwardOrCross e :: r' /\ In (target e) (finished p))
    | Tree e | Back e | ForwardOrCross e => exists p', p = p' ++ [Examine e]
    | Finish v => hd_error (opened p) = Some v /\ filter (fun e => source e =? v) (examined p) = filter if_push (out_edges v)
    | Ask _ => True
    | _ => False
    end.

  (** an accepted edge to a vertex that is not discovered by the calls [p] *)
  Definition fresh (p : list (event E)) (x y : nat) : Prop := next out_edges target if_push x y /\ ~ In y (discovered p).
End Spec.
