(** Model of src/pybgl/dijkstra_shortest_paths.py and of the parts of src/pybgl/algebra.py it uses by default.

    The weights and distances are of any type D with the operators [==] and [<] of Python; the defaults are stated for the
    integers (the floats of Python are not modelled). A graph is given by its methods vertices, out_edges, source and target. *)
From Coq Require Export ZArith.
From Verif Require Import Base Search Heap.

(** ClosedPlus, algebra.py:93-145: + with an absorbing element *)
Definition closed_plus (absorbing x y : Z) : Z := if (Z.eqb x absorbing || Z.eqb y absorbing)%bool then absorbing else (x + y)%Z.
(** The operator [<] on the distances. [a_distance] is any distance: it stands for the value of a missing key (see [key_of]) (algebra.py:30-46, dijkstra_shortest_paths.py:267-271). *)
Class Distance (D : Type) := { d_lt : D -> D -> bool; a_distance : D }.
(** [==] on the integers, dijkstra_shortest_paths.py:176 *)
#[global] Instance EqDec_Z : EqDec Z := Z.eq_dec.
(** [<] on the integers, algebra.py:46 *)
#[global] Instance Distance_Z : Distance Z := {| d_lt := Z.ltb; a_distance := 0%Z |}.
(** Less, algebra.py:30-46 *)
Definition Less {D} `{Distance D} : D -> D -> bool := d_lt.
(** GreaterThan, algebra.py:50-66, on the integers *)
Definition GreaterThan : Z -> Z -> bool := Z.gtb.
(** ClosedMin, algebra.py:207-233, on the integers *)
Definition closed_min (absorbing x y : Z) : Z := if (Z.eqb x absorbing || Z.eqb y absorbing)%bool then absorbing else Z.min x y.
(** [<] and [==] on numbers (the keys of dijkstra_shortest_paths.py:267-271) *)
Definition number_keys {D} {ED : EqDec D} `{Distance D} : keys D := mkKeys d_lt eqb.

(** The methods of DijkstraVisitor, dijkstra_shortest_paths.py:21-110 *)
Inductive devent (E : Type) :=
| DInit (v : nat) | DExamine (v : nat) | DExamineEdge (e : E) | DDiscover (v : nat) | DRelaxed (e : E) | DNotRelaxed (e : E) | DFinish (v : nat).
Arguments DInit {E} v. Arguments DExamine {E} v. Arguments DExamineEdge {E} e. Arguments DDiscover {E} v.
Arguments DRelaxed {E} e. Arguments DNotRelaxed {E} e. Arguments DFinish {E} v.

(** How a call ends: normally, with the exception of the visitor (DijkstraStopException), or with another exception (dijkstra_shortest_paths.py:373-401). *)
Inductive outcome := Done | Stopped | Error (x : exn).

Section Dijkstra.
  Context {E D : Type} {EE : EqDec E} {ED : EqDec D} {LD : Distance D}.
  Variables (vertices : list nat) (out_edges : nat -> list E) (source target : E -> nat).
  (** ReadPropertyMap: [Raise KeyError] for an edge without weight *)
  Variable pmap_eweight : E -> res D.
  (** Some: the argument compare; None: compare is None *)
  Variable compare_arg : option (D -> D -> bool).
  Variables (combine : D -> D -> D) (zero infty : D).
  (** The visitor does not modify the maps. [raises x]: the call x raises DijkstraStopException. *)
  Variable raises : devent E -> bool.

  (** pmap_vpreds wraps a defaultdict(set), pmap_vcolor a defaultdict(int), pmap_vdist a dict. d_log: the calls received by the visitor (dijkstra_shortest_paths.py:113-186). *)
  Record dstate := mkD { d_dist : dict nat D; d_preds : dict nat (list E); d_color : colors; d_heap : heap nat D; d_log : list (devent E) }.
  (** pmap_vpreds[v], dijkstra_shortest_paths.py:177 *)
  Definition preds_of (p : dict nat (list E)) (v : nat) : list E := match dget p v with Some l => l | None => [] end.

  (** dijkstra_shortest_paths.py:266-275: the comparison, and the keys of the heap *)
  Definition compare : D -> D -> bool := match compare_arg with None => Less | Some c => c end.
  (** the keys of the heap, dijkstra_shortest_paths.py:266-275 *)
  Definition ks : keys D := match compare_arg with None => number_keys | Some c => comparable c end.
  (** to_comparable reads pmap_vdist. A missing key would raise KeyError: it is only called on vertices that are there
      (see [dijkstra_shortest_paths] for the source) (dijkstra_shortest_paths.py:267-275). *)
  Definition key_of (dist : dict nat D) (u : nat) : D := match dget dist u with Some d => d | None => a_distance end.

  (** a call of a method of the visitor, e.g. dijkstra_shortest_paths.py:157 *)
  Definition call (x : devent E) (st : dstate) : dstate * outcome :=
    (mkD (d_dist st) (d_preds st) (d_color st) (d_heap st) (d_log st ++ [x]), if raises x then Stopped else Done).
  (** what follows a call is not run if it raises (the semantics of Python; e.g. dijkstra_shortest_paths.py:157-184) *)
  Definition thn (r : dstate * outcome) (k : dstate -> dstate * outcome) : dstate * outcome :=
    match r with (st, Done) => k st | _ => r end.
  (** a loop over edges or vertices, stopped by the first exception (dijkstra_shortest_paths.py:128-130, 160-182) *)
  Fixpoint each {A} (f : A -> dstate -> dstate * outcome) (l : list A) (st : dstate) : dstate * outcome :=
    match l with [] => (st, Done) | x :: l' => thn (f x st) (each f l') end.

  (** dijkstra_shortest_paths_initialization, dijkstra_shortest_paths.py:113-131 *)
  Definition initialization (s : nat) (st : dstate) : dstate * outcome :=
    each (fun u st => call (DInit u) (mkD (dset (d_dist st) u (if u =? s then zero else infty)) (d_preds st) (d_color st) (d_heap st) (d_log st)))
      vertices (mkD (d_dist st) (d_preds st) (dset (d_color st) s WHITE) (d_heap st) (d_log st)).

  (** the body of the loop on the out-edges, dijkstra_shortest_paths.py:161-182 *)
  Definition edge_step (w_su : D) (e : E) (st : dstate) : dstate * outcome :=
    thn (call (DExamineEdge e) st) (fun st =>
    let v := target e in
    match dget (d_dist st) v, pmap_eweight e with
    | None, _ => (st, Error KeyError)
    | _, Raise x => (st, Error x)
    | Some w_sv, Ok w_uv =>
        let w := combine w_su w_uv in
        if compare w w_sv then
          let dist := dset (d_dist st) v w in
          let preds := dset (d_preds st) v [e] in
          let '(c, colors) := color_read (d_color st) v in
          thn
            match c with
            | WHITE => call (DDiscover v) (mkD dist preds (dset colors v GRAY) (heap_push ks (key_of dist) (d_heap st) v) (d_log st))
            | GRAY => (mkD dist preds colors (heap_decrease_key ks (key_of dist) (d_heap st) v) (d_log st), Done)
            | BLACK => (mkD dist preds colors (d_heap st) (d_log st), Done)
            end
            (call (DRelaxed e))
        else if eqb w w_sv then
          call (DRelaxed e) (mkD (d_dist st) (dset (d_preds st) v (sadd e (preds_of (d_preds st) v))) (d_color st) (d_heap st) (d_log st))
        else call (DNotRelaxed e) st
    end).

  (** dijkstra_shortest_paths_iteration, dijkstra_shortest_paths.py:137-185 *)
  Definition iteration (st : dstate) : dstate * outcome :=
    let '(h, r) := heap_pop ks (d_heap st) in
    let st := mkD (d_dist st) (d_preds st) (d_color st) h (d_log st) in
    match r with
    | Raise x => (st, Error x)
    | Ok u =>
        match dget (d_dist st) u with
        | None => (st, Error KeyError)
        | Some w_su =>
            thn (call (DExamine u) st) (fun st =>
            thn (each (edge_step w_su) (out_edges u) st) (fun st =>
            call (DFinish u) (mkD (d_dist st) (d_preds st) (dset (d_color st) u BLACK) (d_heap st) (d_log st))))
        end
    end.

  (** [while heap: ...], dijkstra_shortest_paths.py:277-283 *)
  Fixpoint dijkstra_loop (fuel : nat) (st : dstate) : option (dstate * outcome) :=
    if heap_bool (d_heap st) then
      match fuel with
      | 0 => None
      | S fuel' =>
          match iteration st with
          | (st, Done) => dijkstra_loop fuel' st
          | r => Some r
          end
      end
    else Some (st, Done).

  (** dijkstra_shortest_paths, dijkstra_shortest_paths.py:192-283; [dist], [preds], [colors]: the initial content of the property maps *)
  Definition dijkstra_shortest_paths (fuel : nat) (s : nat) (dist : dict nat D) (preds : dict nat (list E)) (colors : colors) : option (dstate * outcome) :=
    match initialization s (mkD dist preds colors (mkHeap [] 0) []) with
    | (st, Done) =>
        match dget (d_dist st) s with
        | None => Some (st, Error KeyError)
        | Some _ => dijkstra_loop fuel (mkD (d_dist st) (d_preds st) (d_color st) (heap_init ks (key_of (d_dist st)) [s]) (d_log st))
        end
    | r => Some r
    end.

  (** make_shortest_paths_dag, dijkstra_shortest_paths.py:291-334. [e not in done] (dijkstra_shortest_paths.py:331) is always true: done contains
      vertices. es.pop() takes any element: the first in the order given by the oracle. *)
  Fixpoint dag_loop (fuel : nat) (preds : dict nat (list E)) (single_path : bool) (ord : set_order E) (kept : list E) (to_process done : list nat) : option (list E) :=
    match to_process with
    | [] => Some kept
    | _ =>
        match fuel with
        | 0 => None
        | S fuel' =>
            let es := sof (flat_map (preds_of preds) to_process) in
            let es := if single_path then match ord fuel' es with [] => es | e :: _ => [e] end else es in
            let predecessors := sof (map source es) in
            let done := sunion done to_process in
            dag_loop fuel' preds single_path ord (sunion kept es) (sdiff predecessors done) done
        end
    end.
  (** make_shortest_paths_dag, dijkstra_shortest_paths.py:291-332 *)
  Definition make_shortest_paths_dag (fuel : nat) (ord : set_order E) (t : nat) (preds : dict nat (list E)) (single_path : bool) : option (list E) :=
    dag_loop fuel preds single_path ord [] [t] [].

  (** make_shortest_path, dijkstra_shortest_paths.py:337-369; [list(s)[0]] is the first element in the order of iteration of the set. *)
  Fixpoint path_loop (fuel : nat) (ord : set_order E) (s u : nat) (preds : dict nat (list E)) (path : list E) : option (res (list E)) :=
    if u =? s then Some (Ok path)
    else
      match fuel with
      | 0 => None
      | S fuel' =>
          match ord fuel' (preds_of preds u) with
          | [] => Some (Raise IndexError)
          | e :: _ => path_loop fuel' ord s (source e) preds (e :: path)
          end
      end.
  (** make_shortest_path, dijkstra_shortest_paths.py:335-369 *)
  Definition make_shortest_path (fuel : nat) (ord : set_order E) (s t : nat) (preds : dict nat (list E)) : option (res (list E)) :=
    path_loop fuel ord s t preds [].
End Dijkstra.
Arguments dstate : clear implicits.

(** DijkstraTowardsVisitor, dijkstra_shortest_paths.py:380-406 *)
Definition towards {E} (t : nat) (x : devent E) : bool := match x with DExamine u => u =? t | _ => false end.
(** The default visitor (DijkstraVisitor, dijkstra_shortest_paths.py:21-110) *)
Definition no_stop {E} (x : devent E) : bool := false.

(** dijkstra_shortest_path, dijkstra_shortest_paths.py:408-461, with vis=None. *)
Definition dijkstra_shortest_path {E D} {EE : EqDec E} {ED : EqDec D} {LD : Distance D} (vertices : list nat) (out_edges : nat -> list E) (source target : E -> nat) (pmap_eweight : E -> res D)
    (compare_arg : option (D -> D -> bool)) (combine : D -> D -> D) (zero infty : D) (fuel : nat) (ord : set_order E) (s t : nat) (dist : dict nat D) (preds : dict nat (list E)) (colors : colors) :
    option (res (option (list E))) :=
  match dijkstra_shortest_paths vertices out_edges target pmap_eweight compare_arg combine zero infty (towards t) fuel s dist preds colors with
  | None => None
  | Some (st, Done) => Some (Ok None)
  | Some (st, Error x) => Some (Raise x)
  | Some (st, Stopped) =>
      match make_shortest_path source fuel ord s t (d_preds st) with
      | None => None
      | Some (Raise x) => Some (Raise x)
      | Some (Ok p) => Some (Ok (Some p))
      end
  end.
