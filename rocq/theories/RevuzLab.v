(** Model of revuz_minimize (src/pybgl/revuz_minimize.py) on the class IncidenceAutomaton, with its arguments pmap_vlabel and
    pmap_elabel. The default visitor. Revuz.v has the case where both are None. *)
From Coq Require Import ZArith.
From Verif Require Import Base Graph Automaton Heap Revuz.

Section Minimize.
  Context {A B : Type} {EA : EqDec A} {EB : EqDec B}.
  (** revuz_minimize.py:120-121. Simplification: the property maps are functions that do not raise and do not depend on g. A
      property map is true in a test, whatever it holds (property_map.py:13-25). *)
  Variables (pmap_vlabel : option (nat -> B)) (pmap_elabel : option (edge A -> A)).
  (** pmap_vlabel[q] if pmap_vlabel else None, revuz_minimize.py:169; line 155 does not apply to this class *)
  Definition state_label (q : nat) : option B := match pmap_vlabel with Some f => Some (f q) | None => None end.
  (** pmap_elabel[e], revuz_minimize.py:157-159, 172, 179: the label of e in g when no map is given *)
  Definition edge_label (e : edge A) : A := match pmap_elabel with Some f => f e | None => distinguisher e end.
  (** _make_signature, revuz_minimize.py:166-176 *)
  Definition lsignature : Type := bool * option B * list (A * nat).
  (** _make_signature, revuz_minimize.py:166-176 *)
  Definition make_lsignature (g : iaut A) (q : nat) : lsignature :=
    (A_is_final (ia_base g) q, state_label q, sof (map (fun e => (edge_label e, target e)) (IA_out_edges g q))).
  (** [==] on the signatures, the keys of map_aggregates, revuz_minimize.py:214-219 *)
  Definition lsig_eqb (s t : lsignature) : bool := eqb (fst s) (fst t) && set_eqb (snd s) (snd t).
  (** map_aggregates, revuz_minimize.py:214-219: a dict of sets *)
  Fixpoint lagg_add (m : list (lsignature * list nat)) (s : lsignature) (q : nat) : list (lsignature * list nat) :=
    match m with
    | [] => [(s, [q])]
    | (s', qs) :: m' => if lsig_eqb s s' then (s', sadd q qs) :: m' else (s', qs) :: lagg_add m' s q
    end.
  (** the loop of revuz_minimize.py:214-219 *)
  Definition laggregates (g : iaut A) (to_process : list nat) : list (lsignature * list nat) :=
    fold_left (fun m q => lagg_add m (make_lsignature g q) q) to_process [].
  (** _move_edge, revuz_minimize.py:178-201, with r = q1: the new transition has the symbol given by pmap_elabel *)
  Definition lmove_edge (q1 : nat) (g : iaut A) (e_old : edge A) : iaut A * res unit :=
    let a := edge_label e_old in
    match IA_remove_edge g e_old with
    | (g, Raise x) => (g, Raise x)
    | (g, Ok _) =>
        match IA_add_edge g (source e_old) q1 a with
        | (g, Raise x) => (g, Raise x)
        | (g, Ok _) => (g, Ok tt)
        end
    end.
  (** revuz_minimize.py:228-239. [ord]: the order of iteration of the set of the in-edges of q2 *)
  Definition lmerge (ord : set_order (edge A)) (q1 : nat) (g : iaut A) (q2 : nat) : iaut A * res unit :=
    match foreach (lmove_edge q1) g (ord q2 (sof (IA_in_edges g q2))) with
    | (g, Raise x) => (g, Raise x)
    | (g, Ok _) => IA_remove_vertex g q2
    end.
  (** revuz_minimize.py:221-239 *)
  Definition lmerge_group (ord : set_order (edge A)) (g : iaut A) (group : lsignature * list nat) : iaut A * res unit :=
    let mergeable_states := snd group in
    if length mergeable_states <? 2 then (g, Ok tt)
    else
      match py_sorted Nat.ltb mergeable_states with
      | [] => (g, Ok tt)
      | q1 :: rest => foreach (lmerge ord q1) g rest
      end.
  (** revuz_minimize.py:212-248. [ord_v]: the order of iteration of the set to_process. The return value is h - 1. *)
  Fixpoint lminimize_loop (fuel : nat) (ord : set_order (edge A)) (ord_v : set_order nat) (heights : dict nat nat) (h : nat) (to_process : list nat) (g : iaut A) : option (iaut A * res Z) :=
    match to_process with
    | [] => Some (g, Ok (Z.of_nat h - 1)%Z)
    | _ =>
        match fuel with
        | 0 => None
        | S fuel' =>
            match foreach (lmerge_group ord) g (laggregates g (ord_v fuel' to_process)) with
            | (g, Raise x) => Some (g, Raise x)
            | (g, Ok _) =>
                let next := sof (filter (fun p => height_of heights p =? S h) (flat_map (fun q => map source (IA_in_edges g q)) to_process)) in
                lminimize_loop fuel' ord ord_v heights (S h) next g
            end
        end
    end.
  (** revuz_minimize, revuz_minimize.py:118-248: g is modified in place *)
  Definition lrevuz_minimize (fuel : nat) (ord : set_order (edge A)) (ord_v : set_order nat) (leaves : list nat) (g : iaut A) : option (iaut A * res Z) :=
    let out_degree q := length (IA_out_edges g q) in
    match revuz_height (IA_vertices g) out_degree (IA_in_edges g) fuel ord_v [] [] with
    | None => None
    | Some (_, heights) => lminimize_loop fuel ord ord_v heights 0 (leaves_of (IA_vertices g) out_degree leaves) g
    end.
End Minimize.
