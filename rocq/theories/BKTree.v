(** Model of src/pybgl/bk_tree.py. *)
From Verif Require Import Base Graph Automaton.

Section BK.
  Context {X : Type}.
  (** [self.distance] does not read the tree and never raises. *)
  Variable distance : X -> X -> nat.

  (** BKTree, bk_tree.py:13-37: an automaton labelled by distances, the elements and the root *)
  Record bktree := mkBK { bk_aut : aut nat; bk_element : dict nat X; bk_root : option nat }.
  (** BKTree.__init__, bk_tree.py:26-37. *)
  Definition bk_init : bktree := mkBK (A_init 0) [] None.

  (** add_vertex, bk_tree.py:39-51 *)
  Definition bk_add_vertex (t : bktree) (w : X) : bktree * res nat :=
    match A_add_vertex (bk_aut t) with
    | (g, Ok u) => (mkBK g (dset (bk_element t) u w) (bk_root t), Ok u)
    | (g, Raise x) => (mkBK g (bk_element t) (bk_root t), Raise x)
    end.

  (** the loop of insert, bk_tree.py:88-98 *)
  Fixpoint bk_descend (fuel : nat) (t : bktree) (w : X) (u : nat) : option (bktree * res nat) :=
    match fuel with
    | 0 => None
    | S fuel' =>
        match dget (bk_element t) u with
        | None => Some (t, Raise KeyError)
        | Some w_u =>
            let d := distance w w_u in
            if d =? 0 then Some (t, Ok u)
            else
              match A_delta (bk_aut t) u d with
              | Some v => bk_descend fuel' t w v
              | None =>
                  match bk_add_vertex t w with
                  | (t, Raise x) => Some (t, Raise x)
                  | (t, Ok v) =>
                      match A_add_edge (bk_aut t) u v d with
                      | (g, Raise x) => Some (mkBK g (bk_element t) (bk_root t), Raise x)
                      | (g, Ok _) => Some (mkBK g (bk_element t) (bk_root t), Ok v)
                      end
                  end
              end
        end
    end.
  (** insert, bk_tree.py:66-98 *)
  Definition bk_insert (fuel : nat) (t : bktree) (w : X) (u : option nat) : option (bktree * res nat) :=
    match bk_root t with
    | None =>
        match bk_add_vertex t w with
        | (t, Ok r) => Some (mkBK (bk_aut t) (bk_element t) (Some r), Ok r)
        | (t, Raise x) => Some (t, Raise x)
        end
    | Some root => bk_descend fuel t w (match u with Some u => u | None => root end)
    end.

  (** the loop of search, bk_tree.py:123-133; pop takes the right end of the deque (the head of the list), appendleft
      puts at its left end. *)
  Fixpoint bk_search_loop (fuel : nat) (t : bktree) (w : X) (to_process : list nat) (w_best : option X) (d_best : nat) : option (res (option X * nat)) :=
    match to_process with
    | [] => Some (Ok (w_best, d_best))
    | u :: to_process =>
        match fuel with
        | 0 => None
        | S fuel' =>
            match dget (bk_element t) u with
            | None => Some (Raise KeyError)
            | Some w_u =>
                let d_u := distance w w_u in
                let '(w_best, d_best) := if d_u <=? d_best then (Some w_u, d_u) else (w_best, d_best) in
                let kept := filter (fun e => let d_uv := distinguisher e in (d_uv - d_u) + (d_u - d_uv) <=? d_best) (A_out_edges (bk_aut t) u) in
                bk_search_loop fuel' t w (to_process ++ map target kept) w_best d_best
            end
        end
    end.
  (** search, bk_tree.py:100-134. Simplification: no element is None. *)
  Definition bk_search (fuel : nat) (t : bktree) (w : X) (d_max : nat) (r : option nat) : option (res (option (X * nat))) :=
    match bk_root t with
    | None => Some (Ok None)
    | Some root =>
        match bk_search_loop fuel t w [match r with Some r => r | None => root end] None d_max with
        | Some (Ok (Some w_best, d_best)) => Some (Ok (Some (w_best, d_best)))
        | Some (Ok (None, _)) => Some (Ok None)
        | Some (Raise x) => Some (Raise x)
        | None => None
        end
    end.

  (** make_bk_tree, bk_tree.py:181-198 *)
  Fixpoint bk_inserts (fuel : nat) (elements : list X) (t : bktree) : option (bktree * res unit) :=
    match elements with
    | [] => Some (t, Ok tt)
    | x :: l =>
        match bk_insert fuel t x None with
        | Some (t, Ok _) => bk_inserts fuel l t
        | Some (t, Raise e) => Some (t, Raise e)
        | None => None
        end
    end.
  (** make_bk_tree, bk_tree.py:181-198. *)
  Definition make_bk_tree (fuel : nat) (elements : list X) : option (bktree * res unit) := bk_inserts fuel elements bk_init.
End BK.
Arguments bktree : clear implicits.
