(** Model of src/pybgl/revuz_minimize.py. revuz_minimize is modelled on the class IncidenceAutomaton with pmap_vlabel=None,
    pmap_elabel=None and the default visitor, which does nothing. RevuzNode.v has the case of IncidenceNodeAutomaton. *)
From Coq Require Import ZArith.
From Verif Require Import Base Graph Automaton Heap.

Section Height.
  Context {D : Type}.
  Variables (vertices : list nat) (out_degree : nat -> nat) (in_edges : nat -> list (edge D)).
  (** revuz_minimize.py:98-102, 205-209. [leaves]: None and the empty set are both [[]]. *)
  Definition leaves_of (leaves : list nat) : list nat :=
    match leaves with [] => filter (fun q => out_degree q =? 0) vertices | _ => leaves end.
  (** the body of the loop of revuz_height on [v], revuz_minimize.py:107-112 *)
  Definition height_step (h : nat) (st : dict nat nat * list nat) (v : nat) : dict nat nat * list nat :=
    let '(heights, next) := st in
    (dset heights v h, fold_left (fun next e => sadd (source e) next) (in_edges v) next).
  (** revuz_minimize.py:104-115. [ord]: the order of iteration of the set vertices_to_process *)
  Fixpoint height_loop (fuel : nat) (ord : set_order nat) (h : nat) (todo : list nat) (heights : dict nat nat) : option (Z * dict nat nat) :=
    match todo with
    | [] => Some ((Z.of_nat h - 1)%Z, heights)
    | _ =>
        match fuel with
        | 0 => None
        | S fuel' =>
            let '(heights, next) := fold_left (height_step h) (ord fuel' todo) (heights, []) in
            height_loop fuel' ord (S h) next heights
        end
    end.
  (** revuz_height, revuz_minimize.py:76-115; [heights]: the initial content of pmap_vheight *)
  Definition revuz_height (fuel : nat) (ord : set_order nat) (leaves : list nat) (heights : dict nat nat) : option (Z * dict nat nat) :=
    height_loop fuel ord 0 (leaves_of leaves) heights.
End Height.

Section Minimize.
  Context {A : Type} {EA : EqDec A}.
  (** _make_signature, revuz_minimize.py:166-176 (pmap_vlabel is None); frozensets are compared as sets *)
  Definition signature : Type := bool * list (A * nat).
  (** _make_signature, revuz_minimize.py:166-176 *)
  Definition make_signature (g : iaut A) (q : nat) : signature :=
    (A_is_final (ia_base g) q, sof (map (fun e => (distinguisher e, target e)) (IA_out_edges g q))).
  (** [==] on the signatures, the keys of map_aggregates, revuz_minimize.py:214-219 *)
  Definition sig_eqb (s t : signature) : bool := eqb (fst s) (fst t) && set_eqb (snd s) (snd t).
  (** map_aggregates, revuz_minimize.py:214-219: a dict of sets *)
  Fixpoint agg_add (m : list (signature * list nat)) (s : signature) (q : nat) : list (signature * list nat) :=
    match m with
    | [] => [(s, [q])]
    | (s', qs) :: m' => if sig_eqb s s' then (s', sadd q qs) :: m' else (s', qs) :: agg_add m' s q
    end.
  (** the loop of revuz_minimize.py:214-219 *)
  Definition aggregates (g : iaut A) (to_process : list nat) : list (signature * list nat) :=
    fold_left (fun m q => agg_add m (make_signature g q) q) to_process [].
  (** _move_edge, revuz_minimize.py:178-201, with r = q1 *)
  Definition move_edge (q1 : nat) (g : iaut A) (e_old : edge A) : iaut A * res unit :=
    match IA_remove_edge g e_old with
    | (g, Raise x) => (g, Raise x)
    | (g, Ok _) =>
        match IA_add_edge g (source e_old) q1 (distinguisher e_old) with
        | (g, Raise x) => (g, Raise x)
        | (g, Ok _) => (g, Ok tt)
        end
    end.
  (** revuz_minimize.py:228-239. [ord]: the order of iteration of the set of the in-edges of q2 *)
  Definition merge (ord : set_order (edge A)) (q1 : nat) (g : iaut A) (q2 : nat) : iaut A * res unit :=
    match foreach (move_edge q1) g (ord q2 (sof (IA_in_edges g q2))) with
    | (g, Raise x) => (g, Raise x)
    | (g, Ok _) => IA_remove_vertex g q2
    end.
  (** revuz_minimize.py:221-239 *)
  Definition merge_group (ord : set_order (edge A)) (g : iaut A) (group : signature * list nat) : iaut A * res unit :=
    let mergeable_states := snd group in
    if length mergeable_states <? 2 then (g, Ok tt)
    else
      match py_sorted Nat.ltb mergeable_states with
      | [] => (g, Ok tt)
      | q1 :: rest => foreach (merge ord q1) g rest
      end.
  (** pmap_vheight wraps a defaultdict(int) (revuz_minimize.py:245) *)
  Definition height_of (heights : dict nat nat) (v : nat) : nat := match dget heights v with Some h => h | None => 0 end.
  (** revuz_minimize.py:212-248. [ord_v]: the order of iteration of the set to_process. The return value is h - 1. *)
  Fixpoint minimize_loop (fuel : nat) (ord : set_order (edge A)) (ord_v : set_order nat) (heights : dict nat nat) (h : nat) (to_process : list nat) (g : iaut A) : option (iaut A * res Z) :=
    match to_process with
    | [] => Some (g, Ok (Z.of_nat h - 1)%Z)
    | _ =>
        match fuel with
        | 0 => None
        | S fuel' =>
            match foreach (merge_group ord) g (aggregates g (ord_v fuel' to_process)) with
            | (g, Raise x) => Some (g, Raise x)
            | (g, Ok _) =>
                let next := sof (filter (fun p => height_of heights p =? S h) (flat_map (fun q => map source (IA_in_edges g q)) to_process)) in
                minimize_loop fuel' ord ord_v heights (S h) next g
            end
        end
    end.
  (** revuz_minimize, revuz_minimize.py:118-248: g is modified in place *)
  Definition revuz_minimize (fuel : nat) (ord : set_order (edge A)) (ord_v : set_order nat) (leaves : list nat) (g : iaut A) : option (iaut A * res Z) :=
    let out_degree q := length (IA_out_edges g q) in
    match revuz_height (IA_vertices g) out_degree (IA_in_edges g) fuel ord_v [] [] with
    | None => None
    | Some (_, heights) => minimize_loop fuel ord ord_v heights 0 (leaves_of (IA_vertices g) out_degree leaves) g
    end.
End Minimize.
