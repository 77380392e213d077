(** Model of revuz_minimize, src/pybgl/revuz_minimize.py:118-248, with a visitor which records its calls (lines 18-73). As in Revuz.v the automaton is an
    IncidenceAutomaton, pmap_vlabel and pmap_elabel are None. *)
From Coq Require Import ZArith.
From Verif Require Import Base Graph Automaton Heap Revuz.

Section Visitor.
  Context {A : Type} {EA : EqDec A}.
  (** the calls of the methods of the visitor, revuz_minimize.py:18-73 *)
  Inductive revent :=
  | MergingStates (q1 q2 : nat)
  | MoveTransition (e_old : edge A) (e_new : option (edge A))
  | RemoveVertex (u : nat)
  | StatesMerged (q1 q2 : nat).
  (** the calls in their order (revuz_minimize.py:201, 228, 236, 238), with the automaton that is given to them as it is at this moment *)
  Local Notation rtrace := (list (revent * iaut A)).
  (** _move_edge, revuz_minimize.py:178-201, with r = q1 *)
  Definition vmove_edge (q1 : nat) (st : iaut A * rtrace) (e_old : edge A) : (iaut A * rtrace) * res unit :=
    let '(g, tr) := st in
    match IA_remove_edge g e_old with
    | (g, Raise x) => ((g, tr), Raise x)
    | (g, Ok _) =>
        match IA_add_edge g (source e_old) q1 (distinguisher e_old) with
        | (g, Raise x) => ((g, tr), Raise x)
        | (g, Ok (e_new, _)) => ((g, tr ++ [(MoveTransition e_old e_new, g)]), Ok tt)
        end
    end.
  (** revuz_minimize.py:228-239. [ord]: the order of iteration of the set of the in-edges of q2 *)
  Definition vmerge (ord : set_order (edge A)) (q1 : nat) (st : iaut A * rtrace) (q2 : nat) : (iaut A * rtrace) * res unit :=
    let '(g, tr) := st in
    match foreach (vmove_edge q1) (g, tr ++ [(MergingStates q1 q2, g)]) (ord q2 (sof (IA_in_edges g q2))) with
    | (st, Raise x) => (st, Raise x)
    | ((g, tr), Ok _) =>
        let tr := tr ++ [(RemoveVertex q2, g)] in
        match IA_remove_vertex g q2 with
        | (g, Raise x) => ((g, tr), Raise x)
        | (g, Ok _) => ((g, tr ++ [(StatesMerged q1 q2, g)]), Ok tt)
        end
    end.
  (** revuz_minimize.py:221-239 *)
  Definition vmerge_group (ord : set_order (edge A)) (st : iaut A * rtrace) (group : @signature A * list nat) : (iaut A * rtrace) * res unit :=
    let mergeable_states := snd group in
    if length mergeable_states <? 2 then (st, Ok tt)
    else
      match py_sorted Nat.ltb mergeable_states with
      | [] => (st, Ok tt)
      | q1 :: rest => foreach (vmerge ord q1) st rest
      end.
  (** revuz_minimize.py:212-248. [ord_v]: the order of iteration of the set to_process. The return value is h - 1. *)
  Fixpoint vminimize_loop (fuel : nat) (ord : set_order (edge A)) (ord_v : set_order nat) (heights : dict nat nat) (h : nat) (to_process : list nat) (st : iaut A * rtrace) : option ((iaut A * rtrace) * res Z) :=
    match to_process with
    | [] => Some (st, Ok (Z.of_nat h - 1)%Z)
    | _ =>
        match fuel with
        | 0 => None
        | S fuel' =>
            match foreach (vmerge_group ord) st (aggregates (fst st) (ord_v fuel' to_process)) with
            | (st, Raise x) => Some (st, Raise x)
            | (st, Ok _) =>
                let next := sof (filter (fun p => height_of heights p =? S h) (flat_map (fun q => map source (IA_in_edges (fst st) q)) to_process)) in
                vminimize_loop fuel' ord ord_v heights (S h) next st
            end
        end
    end.
  (** revuz_minimize, revuz_minimize.py:118-248, with its visitor *)
  Definition vrevuz_minimize (fuel : nat) (ord : set_order (edge A)) (ord_v : set_order nat) (leaves : list nat) (g : iaut A) : option ((iaut A * rtrace) * res Z) :=
    let out_degree q := length (IA_out_edges g q) in
    match revuz_height (IA_vertices g) out_degree (IA_in_edges g) fuel ord_v [] [] with
    | None => None
    | Some (_, heights) => vminimize_loop fuel ord ord_v heights 0 (leaves_of (IA_vertices g) out_degree leaves) (g, [])
    end.
End Visitor.
Arguments revent : clear implicits.
(** the calls in their order, revuz_minimize.py:201, 228, 236, 238 *)
Notation rtrace A := (list (revent A * iaut A)).
