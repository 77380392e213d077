(** What the calls of parallel_breadth_first_search have to be: the product of two automata as a graph on the pairs of states. *)
From Verif Require Import Base Graph Automaton PBFS ParBfs.

Section Spec.
  Context {A : Type} `{EqDec A}.

  (** the arguments of some of the calls, in the order of the calls *)
  Definition vertices_of (p : vertex_hook -> bool) (t : list (pevent A)) : list qpair :=
    flat_map (fun x => match x with Vertex h q1 _ q2 _ => if p h then [(q1, q2)] else [] | _ => [] end) t.
  Definition started := vertices_of (fun h => match h with HStart => true | _ => false end).
  Definition examined := vertices_of (fun h => match h with HExamine => true | _ => false end).
  Definition discovered := vertices_of (fun h => match h with HDiscover => true | _ => false end).
  Definition finished := vertices_of (fun h => match h with HFinish => true | _ => false end).
  (** the source and the target of a pair of edges *)
  Definition source_pair (e1 e2 : medge) : qpair := (medge_source e1, medge_source e2).
  Definition target_pair (e1 e2 : medge) : qpair := (medge_target e1, medge_target e2).
  (** the pairs discovered through a pair of edges accepted by if_push *)
  Definition pushed (if_push : medge -> medge -> A -> bool) (t : list (pevent A)) : list qpair :=
    flat_map (fun x => match x with Edges HTree e1 _ e2 _ a => if if_push e1 e2 a then [target_pair e1 e2] else [] | _ => [] end) t.

  Section Product.
    Variables g1 g2 : aut A.
    (** reading [a], or a word, in both automata; a state that has no transition becomes BOTTOM *)
    Definition step (p : qpair) (a : A) : qpair := (A_delta_word g1 (fst p) [a], A_delta_word g2 (snd p) [a]).
    Definition read (p : qpair) (w : list A) : qpair := (A_delta_word g1 (fst p) w, A_delta_word g2 (snd p) w).
    Definition enabled (p : qpair) (a : A) : Prop := step p a <> (None, None).
    (** the pair of edges followed by [a] from [p]: no edge from BOTTOM, an edge to BOTTOM if there is no transition *)
    Definition edge_of (g : aut A) (q : option nat) (a : A) : medge :=
      match q with None => None | Some q => Some (q, A_delta_word g (Some q) [a]) end.

    (** The calls made while [p] is examined on the symbols [syms] *)
    Definition edges (h : edge_hook) (p : qpair) (a : A) : pevent A := Edges h (edge_of g1 (fst p) a) First (edge_of g2 (snd p) a) Second a.
    Inductive on_symbols (p : qpair) : list A -> list (pevent A) -> Prop :=
    | on_nil : on_symbols p [] []
    | on_tree a syms t : on_symbols p syms t -> on_symbols p (a :: syms)
        (Symbol (fst p) First (snd p) Second a :: edges HEdge p a :: edges HTree p a :: Vertex HDiscover (fst (step p a)) First (snd (step p a)) Second :: t)
    | on_gray a syms t : on_symbols p syms t -> on_symbols p (a :: syms) (Symbol (fst p) First (snd p) Second a :: edges HEdge p a :: edges HGray p a :: t)
    | on_black a syms t : on_symbols p syms t -> on_symbols p (a :: syms) (Symbol (fst p) First (snd p) Second a :: edges HEdge p a :: edges HBlack p a :: t).
    (** The calls made while the pairs [l] are examined one after the other, each on all its enabled symbols in some order *)
    Inductive on_pairs : list qpair -> list (pevent A) -> Prop :=
    | on_none : on_pairs [] []
    | on_pair p l syms t t' : NoDup syms -> (forall a, In a syms <-> enabled p a) -> on_symbols p syms t -> on_pairs l t' ->
        on_pairs (p :: l) (Vertex HExamine (fst p) First (snd p) Second :: t ++ Vertex HFinish (fst p) Second (snd p) Second :: t').

    (** After the calls [t]: the next examined pair is the first one, among the sources and then the pushed pairs, which is
        not yet examined; the outcome of an edge depends on whether its target has been discovered or finished. *)
    Definition legal (if_push : medge -> medge -> A -> bool) (t : list (pevent A)) (x : pevent A) : Prop :=
      match x with
      | Vertex HExamine q1 _ q2 _ => exists l, started t ++ pushed if_push t = examined t ++ (q1, q2) :: l
      | Edges HTree e1 _ e2 _ _ => ~ In (target_pair e1 e2) (discovered t) /\ ~ In (target_pair e1 e2) (finished t)
      | Edges HGray e1 _ e2 _ _ => In (target_pair e1 e2) (discovered t) /\ ~ In (target_pair e1 e2) (finished t)
      | Edges HBlack e1 _ e2 _ _ => In (target_pair e1 e2) (finished t)
      | _ => True
      end.
    (** the color of a pair after the calls [t] *)
    Definition color_after (t : list (pevent A)) (x : qpair) : color :=
      if mem x (finished t) then BLACK else if mem x (discovered t) then GRAY else WHITE.

    (** [p] is reached from a source by [n] enabled symbols, through pairs in [pp] *)
    Inductive reach (pp : qpair -> bool) (sources : list qpair) : nat -> qpair -> Prop :=
    | reach_0 s : In s sources -> reach pp sources 0 s
    | reach_S n p a : reach pp sources n p -> enabled p a -> pp (step p a) = true -> reach pp sources (S n) (step p a).
    Definition reached pp sources p : Prop := exists n, reach pp sources n p.
    Definition distance pp sources (p : qpair) (n : nat) : Prop := reach pp sources n p /\ forall m, reach pp sources m p -> n <= m.
  End Product.
End Spec.
