(** Model of revuz_minimize, src/pybgl/revuz_minimize.py:118-248, on the class IncidenceNodeAutomaton with all its arguments: pmap_vlabel
    and pmap_elabel as in RevuzNodeLab.v, leaves, and a visitor which records its calls (lines 18-73), as in RevuzVis.v. *)
From Coq Require Import ZArith.
From Verif Require Import Base Graph Automaton NodeAut Heap Revuz RevuzNode RevuzNodeLab RevuzVis.

Section Visitor.
  Context {A B C : Type} {EA : EqDec A} {EB : EqDec B} {EC : EqDec C}.
  (** revuz_minimize.py:120-121, as in RevuzNodeLab.v *)
  Variables (pmap_vlabel : option (nat -> B)) (pmap_elabel : option (edge (option A) -> C)).
  (** the calls in their order (revuz_minimize.py:201, 228, 236, 238), with the automaton that is given to them as it is at this moment *)
  Local Notation nrtrace := (list (revent (option A) * naut A)).
  (** _move_edge, revuz_minimize.py:178-201, with r = q1 *)
  Definition nvmove_edge (q1 : nat) (st : naut A * nrtrace) (e_old : edge (option A)) : (naut A * nrtrace) * res unit :=
    let '(g, tr) := st in
    match INA_remove_edge g e_old with
    | (g, Raise x) => ((g, tr), Raise x)
    | (g, Ok _) =>
        match INA_add_edge g (source e_old) q1 with
        | (g, Raise x) => ((g, tr), Raise x)
        | (g, Ok (e_new, _)) => ((g, tr ++ [(MoveTransition e_old e_new, g)]), Ok tt)
        end
    end.
  (** revuz_minimize.py:228-239. [ord]: the order of iteration of the set of the in-edges of q2 *)
  Definition nvmerge (ord : set_order (edge (option A))) (q1 : nat) (st : naut A * nrtrace) (q2 : nat) : (naut A * nrtrace) * res unit :=
    let '(g, tr) := st in
    match foreach (nvmove_edge q1) (g, tr ++ [(MergingStates q1 q2, g)]) (ord q2 (sof (INA_in_edges g q2))) with
    | (st, Raise x) => (st, Raise x)
    | ((g, tr), Ok _) =>
        let tr := tr ++ [(RemoveVertex q2, g)] in
        match INA_remove_vertex g q2 with
        | (g, Raise x) => ((g, tr), Raise x)
        | (g, Ok _) => ((g, tr ++ [(StatesMerged q1 q2, g)]), Ok tt)
        end
    end.
  (** revuz_minimize.py:221-239 *)
  Definition nvmerge_group (ord : set_order (edge (option A))) (st : naut A * nrtrace) (group : @nlsignature A B C * list nat) : (naut A * nrtrace) * res unit :=
    let mergeable_states := snd group in
    if length mergeable_states <? 2 then (st, Ok tt)
    else
      match py_sorted Nat.ltb mergeable_states with
      | [] => (st, Ok tt)
      | q1 :: rest => foreach (nvmerge ord q1) st rest
      end.
  (** revuz_minimize.py:212-248. [ord_v]: the order of iteration of the set to_process. The return value is h - 1. *)
  Fixpoint nvminimize_loop (fuel : nat) (ord : set_order (edge (option A))) (ord_v : set_order nat) (heights : dict nat nat) (h : nat) (to_process : list nat) (st : naut A * nrtrace) : option ((naut A * nrtrace) * res Z) :=
    match to_process with
    | [] => Some (st, Ok (Z.of_nat h - 1)%Z)
    | _ =>
        match fuel with
        | 0 => None
        | S fuel' =>
            match nlaggregates pmap_vlabel pmap_elabel (fst st) (ord_v fuel' to_process) with
            | (_, Raise x) => Some (st, Raise x)
            | (m, Ok _) =>
                match foreach (nvmerge_group ord) st m with
                | (st, Raise x) => Some (st, Raise x)
                | (st, Ok _) =>
                    let next := sof (filter (fun p => height_of heights p =? S h) (flat_map (fun q => map source (INA_in_edges (fst st) q)) to_process)) in
                    nvminimize_loop fuel' ord ord_v heights (S h) next st
                end
            end
        end
    end.
  (** revuz_minimize, revuz_minimize.py:118-248, with its visitor *)
  Definition nvrevuz_minimize (fuel : nat) (ord : set_order (edge (option A))) (ord_v : set_order nat) (leaves : list nat) (g : naut A) : option ((naut A * nrtrace) * res Z) :=
    match revuz_height (NA_vertices g) (NA_out_degree g) (INA_in_edges g) fuel ord_v [] [] with
    | None => None
    | Some (_, heights) => nvminimize_loop fuel ord ord_v heights 0 (leaves_of (NA_vertices g) (NA_out_degree g) leaves) (g, [])
    end.
End Visitor.
(** the calls in their order, revuz_minimize.py:201, 228, 236, 238 *)
Notation nrtrace A := (list (revent (option A) * naut A)).
