(** Model of revuz_minimize (src/pybgl/revuz_minimize.py) on the class IncidenceNodeAutomaton, with its arguments pmap_vlabel and
    pmap_elabel. The default visitor. RevuzNode.v has the case where both are None, RevuzLab.v the class IncidenceAutomaton. *)
From Coq Require Import ZArith.
From Verif Require Import Base Graph Automaton NodeAut Heap Revuz RevuzNode.

(** [==] on a value of one of two kinds, revuz_minimize.py:214-219: the labels of one call all come from the same map *)
#[global] Instance EqDec_sum {A B} `{EqDec A} `{EqDec B} : EqDec (A + B).
Proof. intros x y. decide equality; auto. Defined.

Section Minimize.
  Context {A B C : Type} {EA : EqDec A} {EB : EqDec B} {EC : EqDec C}.
  (** revuz_minimize.py:120-121. Simplification: the property maps are functions that do not raise and do not depend on g. A
      property map is true in a test, whatever it holds (property_map.py:13-25). *)
  Variables (pmap_vlabel : option (nat -> B)) (pmap_elabel : option (edge (option A) -> C)).
  (** pmap_vlabel[q], revuz_minimize.py:155-156, 169: g.symbol(q) when no map is given *)
  Definition node_label (g : naut A) (q : nat) : option A + B :=
    match pmap_vlabel with Some f => inr (f q) | None => inl (na_symbol g q) end.
  (** pmap_elabel[e], revuz_minimize.py:157-163, 172: the label of the target when no map is given *)
  Definition arc_label (g : naut A) (e : edge (option A)) : (option A + B) + C :=
    match pmap_elabel with Some f => inr (f e) | None => inl (node_label g (target e)) end.
  (** _make_signature, revuz_minimize.py:166-176; frozensets are compared as sets *)
  Definition nlsignature : Type := bool * (option A + B) * list (((option A + B) + C) * nat).
  (** _make_signature, revuz_minimize.py:166-176. out_edges raises KeyError on an unknown state. *)
  Definition make_nlsignature (g : naut A) (q : nat) : res nlsignature :=
    rbind (NA_out_edges g q) (fun es =>
      Ok (na_final g q, node_label g q, sof (map (fun e => (arc_label g e, target e)) es))).
  (** [==] on the signatures, the keys of map_aggregates, revuz_minimize.py:214-219 *)
  Definition nlsig_eqb (s t : nlsignature) : bool := eqb (fst s) (fst t) && set_eqb (snd s) (snd t).
  (** map_aggregates, revuz_minimize.py:214-219: a dict of sets *)
  Fixpoint nlagg_add (m : list (nlsignature * list nat)) (s : nlsignature) (q : nat) : list (nlsignature * list nat) :=
    match m with
    | [] => [(s, [q])]
    | (s', qs) :: m' => if nlsig_eqb s s' then (s', sadd q qs) :: m' else (s', qs) :: nlagg_add m' s q
    end.
  (** the loop of revuz_minimize.py:214-219 *)
  Definition nlaggregates (g : naut A) (to_process : list nat) : list (nlsignature * list nat) * res unit :=
    foreach (fun m q => match make_nlsignature g q with Ok s => (nlagg_add m s q, Ok tt) | Raise x => (m, Raise x) end) [] to_process.
  (** revuz_minimize.py:221-239. _move_edge (lines 178-201) reads the label of the edge but does not use it in this class, so
      [nmerge] of RevuzNode.v has this code. *)
  Definition nlmerge_group (ord : set_order (edge (option A))) (g : naut A) (group : nlsignature * list nat) : naut A * res unit :=
    let mergeable_states := snd group in
    if length mergeable_states <? 2 then (g, Ok tt)
    else
      match py_sorted Nat.ltb mergeable_states with
      | [] => (g, Ok tt)
      | q1 :: rest => foreach (nmerge ord q1) g rest
      end.
  (** revuz_minimize.py:212-248. [ord_v]: the order of iteration of the set to_process. The return value is h - 1. *)
  Fixpoint nlminimize_loop (fuel : nat) (ord : set_order (edge (option A))) (ord_v : set_order nat) (heights : dict nat nat) (h : nat) (to_process : list nat) (g : naut A) : option (naut A * res Z) :=
    match to_process with
    | [] => Some (g, Ok (Z.of_nat h - 1)%Z)
    | _ =>
        match fuel with
        | 0 => None
        | S fuel' =>
            match nlaggregates g (ord_v fuel' to_process) with
            | (_, Raise x) => Some (g, Raise x)
            | (m, Ok _) =>
                match foreach (nlmerge_group ord) g m with
                | (g, Raise x) => Some (g, Raise x)
                | (g, Ok _) =>
                    let next := sof (filter (fun p => height_of heights p =? S h) (flat_map (fun q => map source (INA_in_edges g q)) to_process)) in
                    nlminimize_loop fuel' ord ord_v heights (S h) next g
                end
            end
        end
    end.
  (** revuz_minimize, revuz_minimize.py:118-248: g is modified in place *)
  Definition nlrevuz_minimize (fuel : nat) (ord : set_order (edge (option A))) (ord_v : set_order nat) (leaves : list nat) (g : naut A) : option (naut A * res Z) :=
    match revuz_height (NA_vertices g) (NA_out_degree g) (INA_in_edges g) fuel ord_v [] [] with
    | None => None
    | Some (_, heights) => nlminimize_loop fuel ord ord_v heights 0 (leaves_of (NA_vertices g) (NA_out_degree g) leaves) g
    end.
End Minimize.
