(** Model of revuz_minimize, src/pybgl/revuz_minimize.py:118-248, on the class IncidenceNodeAutomaton with pmap_vlabel=None,
    pmap_elabel=None and the default visitor, which does nothing: then pmap_vlabel is g.symbol and pmap_elabel is the symbol
    of the target (lines 155-163). Revuz.v has the case of IncidenceAutomaton. *)
From Coq Require Import ZArith.
From Verif Require Import Base Graph Automaton NodeAut Heap Revuz.

Section Minimize.
  Context {A : Type} {EA : EqDec A}.
  (** _make_signature, revuz_minimize.py:166-176; frozensets are compared as sets. out_edges raises KeyError on an unknown
      state. *)
  Definition nsignature : Type := bool * option A * list (option A * nat).
  (** _make_signature, revuz_minimize.py:166-176 *)
  Definition make_nsignature (g : naut A) (q : nat) : res nsignature :=
    rbind (NA_out_edges g q) (fun es =>
      Ok (na_final g q, na_symbol g q, sof (map (fun e => (na_symbol g (target e), target e)) es))).
  (** [==] on the signatures, the keys of map_aggregates, revuz_minimize.py:214-219 *)
  Definition nsig_eqb (s t : nsignature) : bool := eqb (fst s) (fst t) && set_eqb (snd s) (snd t).
  (** map_aggregates, revuz_minimize.py:214-219: a dict of sets *)
  Fixpoint nagg_add (m : list (nsignature * list nat)) (s : nsignature) (q : nat) : list (nsignature * list nat) :=
    match m with
    | [] => [(s, [q])]
    | (s', qs) :: m' => if nsig_eqb s s' then (s', sadd q qs) :: m' else (s', qs) :: nagg_add m' s q
    end.
  (** the loop of revuz_minimize.py:214-219 *)
  Definition naggregates (g : naut A) (to_process : list nat) : list (nsignature * list nat) * res unit :=
    foreach (fun m q => match make_nsignature g q with Ok s => (nagg_add m s q, Ok tt) | Raise x => (m, Raise x) end) [] to_process.
  (** _move_edge, revuz_minimize.py:178-201, with r = q1 *)
  Definition nmove_edge (q1 : nat) (g : naut A) (e_old : edge (option A)) : naut A * res unit :=
    match INA_remove_edge g e_old with
    | (g, Raise x) => (g, Raise x)
    | (g, Ok _) =>
        match INA_add_edge g (source e_old) q1 with
        | (g, Raise x) => (g, Raise x)
        | (g, Ok _) => (g, Ok tt)
        end
    end.
  (** revuz_minimize.py:228-239. [ord]: the order of iteration of the set of the in-edges of q2 *)
  Definition nmerge (ord : set_order (edge (option A))) (q1 : nat) (g : naut A) (q2 : nat) : naut A * res unit :=
    match foreach (nmove_edge q1) g (ord q2 (sof (INA_in_edges g q2))) with
    | (g, Raise x) => (g, Raise x)
    | (g, Ok _) => INA_remove_vertex g q2
    end.
  (** revuz_minimize.py:221-239 *)
  Definition nmerge_group (ord : set_order (edge (option A))) (g : naut A) (group : nsignature * list nat) : naut A * res unit :=
    let mergeable_states := snd group in
    if length mergeable_states <? 2 then (g, Ok tt)
    else
      match py_sorted Nat.ltb mergeable_states with
      | [] => (g, Ok tt)
      | q1 :: rest => foreach (nmerge ord q1) g rest
      end.
  (** revuz_minimize.py:212-248. [ord_v]: the order of iteration of the set to_process. The return value is h - 1. *)
  Fixpoint nminimize_loop (fuel : nat) (ord : set_order (edge (option A))) (ord_v : set_order nat) (heights : dict nat nat) (h : nat) (to_process : list nat) (g : naut A) : option (naut A * res Z) :=
    match to_process with
    | [] => Some (g, Ok (Z.of_nat h - 1)%Z)
    | _ =>
        match fuel with
        | 0 => None
        | S fuel' =>
            match naggregates g (ord_v fuel' to_process) with
            | (_, Raise x) => Some (g, Raise x)
            | (m, Ok _) =>
                match foreach (nmerge_group ord) g m with
                | (g, Raise x) => Some (g, Raise x)
                | (g, Ok _) =>
                    let next := sof (filter (fun p => height_of heights p =? S h) (flat_map (fun q => map source (INA_in_edges g q)) to_process)) in
                    nminimize_loop fuel' ord ord_v heights (S h) next g
                end
            end
        end
    end.
  (** out_degree on a state of the automaton: Graph.out_degree, graph.py:290-301, counts the out-edges. *)
  Definition NA_out_degree (g : naut A) (q : nat) : nat := match NA_out_edges g q with Ok es => length es | Raise _ => 0 end.
  (** revuz_minimize, revuz_minimize.py:118-248: g is modified in place *)
  Definition node_revuz_minimize (fuel : nat) (ord : set_order (edge (option A))) (ord_v : set_order nat) (leaves : list nat) (g : naut A) : option (naut A * res Z) :=
    match revuz_height (NA_vertices g) (NA_out_degree g) (INA_in_edges g) fuel ord_v [] [] with
    | None => None
    | Some (_, heights) => nminimize_loop fuel ord ord_v heights 0 (leaves_of (NA_vertices g) (NA_out_degree g) leaves) g
    end.

  (** Histories of an IncidenceNodeAutomaton with the calls of set_initial and set_final, inherited from Automaton
      (automaton.py:213-226, 267-277) *)
  Inductive rop := RCall (op : nop A) | RSetInitial (q : option nat) (b : bool) | RSetFinal (q : nat) (b : bool).
  (** one call, incidence_node_automaton.py:28-95, automaton.py:213-226, 267-277 *)
  Definition INA_rcall (g : naut A) (op : rop) : naut A :=
    match op with
    | RCall op => fst (INA_call g op)
    | RSetInitial q b => NA_set_initial g q b
    | RSetFinal q b => NA_set_final g q b
    end.
End Minimize.
Arguments rop : clear implicits.
