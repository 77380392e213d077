(** Model of src/pybgl/automaton.py (Automaton, make_automaton), incidence_automaton.py
    (IncidenceAutomaton), node_automaton.py (NodeAutomaton) and incidence_node_automaton.py
    (IncidenceNodeAutomaton). Labels have an abstract type [A] with decidable equality. *)
From Verif Require Import Base Graph.

Section Automaton.
  Context {A : Type} `{EqDec A}.

  Local Notation tedge := (edge A).

  (** Automaton, automaton.py:24-55; [adjacencies[q][a] == r]. The initial state may be BOTTOM (None).
      The property map of final states is a function on vertices; reading it never fails (a
      defaultdict in the default constructor). *)
  Record aut := mkAut {
    au_last : nat;
    au_adj : dict nat (dict A nat);
    au_q0 : option nat;
    au_final : nat -> bool }.

  (** Graph.add_vertex, graph.py:155-165. *)
  Definition A_add_vertex (g : aut) : aut * res nat :=
    let u := au_last g in
    (mkAut (S u) (dset (au_adj g) u []) (au_q0 g) (au_final g), Ok u).

  (** The loop of Graph.__init__ on num_vertices, graph.py:152-153. *)
  Fixpoint A_add_vertices (n : nat) (g : aut) : aut :=
    match n with O => g | S n' => A_add_vertices n' (fst (A_add_vertex g)) end.

  (** Automaton.__init__, automaton.py:32-55 ([q0] defaults to 0, no final state). *)
  Definition A_init (num_vertices : nat) : aut :=
    A_add_vertices num_vertices (mkAut 0 [] (Some 0) (fun _ => false)).

  (** Graph.vertices, graph.py:208-216. *)
  Definition A_vertices (g : aut) : list nat := dkeys (au_adj g).

  (** Automaton.delta, automaton.py:57-71. *)
  Definition A_delta (g : aut) (q : nat) (a : A) : option nat :=
    match dget (au_adj g) q with
    | None => None
    | Some d => dget d a
    end.

  (** Automaton.add_edge, automaton.py:73-95. [if self.delta(q, a)] is the truth value of an
      integer: a transition to state 0 counts as absent. *)
  Definition A_add_edge (g : aut) (q r : nat) (a : A) : aut * res (option tedge * bool) :=
    let falsy := match A_delta g q a with None => true | Some 0 => true | Some _ => false end in
    if negb falsy then (g, Ok (None, false))
    else
      match dget (au_adj g) q with
      | None => (g, Raise KeyError)
      | Some d =>
          (mkAut (au_last g) (dset (au_adj g) q (dset d a r)) (au_q0 g) (au_final g),
           Ok (Some (Edge q r a), true))
      end.

  (** Automaton.edge, automaton.py:97-118 ([q] and [r] are not None). *)
  Definition A_edge (g : aut) (q r : nat) (a : A) : option tedge * bool :=
    if eqb (Some r) (A_delta g q a) then (Some (Edge q r a), true) else (None, false).

  (** Automaton.out_edges, automaton.py:138-152. *)
  Definition A_out_edges (g : aut) (q : nat) : list tedge :=
    match dget (au_adj g) q with
    | None => []
    | Some d => map (fun '(a, r) => Edge q r a) d
    end.

  (** Automaton.edges, automaton.py:199-211. *)
  Definition A_edges (g : aut) : list tedge :=
    flat_map (fun '(q, d) => map (fun '(a, r) => Edge q r a) d) (au_adj g).

  (** Automaton.remove_edge, automaton.py:154-167: the target of [e] is ignored. *)
  Definition A_remove_edge (g : aut) (e : tedge) : aut * res unit :=
    let q := source e in
    match dget (au_adj g) q with
    | None => (g, Ok tt)
    | Some d =>
        if dmem d (distinguisher e)
        then (mkAut (au_last g) (dset (au_adj g) q (ddel d (distinguisher e))) (au_q0 g) (au_final g), Ok tt)
        else (g, Ok tt)
    end.

  (** Graph.remove_vertex, graph.py:177-197, with the methods of Automaton. *)
  Definition A_remove_vertex (g : aut) (u : nat) : aut * res unit :=
    let in_step (g : aut) (e : tedge) := if u =? target e then A_remove_edge g e else (g, Ok tt) in
    match foreach in_step g (A_edges g) with
    | (g1, Raise ex) => (g1, Raise ex)
    | (g1, Ok _) =>
        match foreach A_remove_edge g1 (A_out_edges g1 u) with
        | (g2, Raise ex) => (g2, Raise ex)
        | (g2, Ok _) =>
            if dmem (au_adj g2) u
            then (mkAut (au_last g2) (ddel (au_adj g2) u) (au_q0 g2) (au_final g2), Ok tt)
            else (g2, Raise KeyError)
        end
    end.

  (** Graph.clear, graph.py:199-206: the initial and final states are left as they are. *)
  Definition A_clear (g : aut) : aut * res unit :=
    let g0 := mkAut 0 (au_adj g) (au_q0 g) (au_final g) in
    foreach A_remove_vertex g0 (A_vertices g0).

  (** Automaton.sigma, automaton.py:169-183 (on a vertex, and on BOTTOM). *)
  Definition A_sigma (g : aut) (q : option nat) : list A :=
    match q with
    | None => []
    | Some q => match dget (au_adj g) q with None => [] | Some d => sof (dkeys d) end
    end.

  (** Automaton.alphabet, automaton.py:185-197. *)
  Definition A_alphabet (g : aut) : list A :=
    sof (flat_map (fun q => match dget (au_adj g) q with None => [] | Some d => dkeys d end)
           (A_vertices g)).

  (** Automaton.set_initial, initial, is_initial: automaton.py:213-251. *)
  Definition A_set_initial (g : aut) (q : option nat) (b : bool) : aut :=
    let q0 := if b then q else if eqb (au_q0 g) q then None else au_q0 g in
    mkAut (au_last g) (au_adj g) q0 (au_final g).
  (** Automaton.initial, automaton.py:228-237. *)
  Definition A_initial (g : aut) : option nat := au_q0 g.
  (** Automaton.is_initial, automaton.py:239-251. *)
  Definition A_is_initial (g : aut) (q : nat) : bool := eqb (au_q0 g) (Some q).

  (** Automaton.set_final, is_final, finals: automaton.py:267-306. *)
  Definition A_set_final (g : aut) (q : nat) (b : bool) : aut :=
    mkAut (au_last g) (au_adj g) (au_q0 g) (fun x => if eqb x q then b else au_final g x).
  (** Automaton.is_final, automaton.py:279-291. *)
  Definition A_is_final (g : aut) (q : nat) : bool := au_final g q.
  (** Automaton.finals, automaton.py:293-306. *)
  Definition A_finals (g : aut) : list nat := filter (A_is_final g) (A_vertices g).

  (** is_final on a state that may be BOTTOM: the default map answers False for None (simplification:
      nobody calls [set_final(None)]). *)
  (** Automaton.is_final, automaton.py:279-291, on an argument that may be None. *)
  Definition A_is_final_opt (g : aut) (q : option nat) : bool :=
    match q with None => false | Some q => A_is_final g q end.

  (** Automaton.delta_word, automaton.py:328-346. *)
  Fixpoint A_delta_word (g : aut) (q : option nat) (w : list A) : option nat :=
    match w with
    | [] => q
    | a :: w' =>
        match q with
        | None => None
        | Some q' => A_delta_word g (A_delta g q' a) w'
        end
    end.

  (** Automaton.accepts, automaton.py:348-363. *)
  Definition A_accepts (g : aut) (w : list A) : bool :=
    match A_delta_word g (A_initial g) w with
    | None => false
    | Some q => A_is_final g q
    end.

  (** Automaton.is_complete, automaton.py:386-400 (comparison of sets). *)
  Definition set_eqb (s t : list A) : bool :=
    forallb (fun x => mem x t) s && forallb (fun x => mem x s) t.
  (** Automaton.is_complete, automaton.py:386-400. *)
  Definition A_is_complete (g : aut) : bool :=
    forallb (fun q => set_eqb (A_sigma g (Some q)) (A_alphabet g)) (A_vertices g).

  (** Graph.num_vertices, num_edges, has_vertex. *)
  (** Graph.num_vertices, graph.py:167-175. *)
  Definition A_num_vertices (g : aut) : nat := length (A_vertices g).
  (** Graph.num_edges, graph.py:264-271. *)
  Definition A_num_edges (g : aut) : nat := length (A_edges g).

  (** ** IncidenceAutomaton, incidence_automaton.py:12-93; [in_adjacencies[r][q] == {a}]. *)
  Record iaut := mkIAut { ia_base : aut; ia_in : dict nat (dict nat (list A)) }.

  (** incidence_automaton.py:29-33. *)
  Definition IA_add_vertex (g : iaut) : iaut * res nat :=
    match A_add_vertex (ia_base g) with
    | (b, Raise ex) => (mkIAut b (ia_in g), Raise ex)
    | (b, Ok q) => (mkIAut b (dset (ia_in g) q []), Ok q)
    end.

  (** The loop of Graph.__init__ on num_vertices, graph.py:152-153, with IncidenceAutomaton.add_vertex. *)
  Fixpoint IA_add_vertices (n : nat) (g : iaut) : iaut :=
    match n with O => g | S n' => IA_add_vertices n' (fst (IA_add_vertex g)) end.

  (** incidence_automaton.py:19-27. *)
  Definition IA_init (n : nat) : iaut := IA_add_vertices n (mkIAut (A_init 0) []).

  (** incidence_automaton.py:35-45. *)
  Definition IA_add_edge (g : iaut) (q r : nat) (a : A) : iaut * res (option tedge * bool) :=
    match A_add_edge (ia_base g) q r a with
    | (b, Raise ex) => (mkIAut b (ia_in g), Raise ex)
    | (b, Ok (e, false)) => (mkIAut b (ia_in g), Ok (e, false))
    | (b, Ok (e, true)) =>
        match dget (ia_in g) r with
        | None => (mkIAut b (ia_in g), Raise KeyError)
        | Some r_in =>
            let s := match dget r_in q with None => [a] | Some s => sadd a s end in
            (mkIAut b (dset (ia_in g) r (dset r_in q s)), Ok (e, true))
        end
    end.

  (** incidence_automaton.py:87-93. *)
  Definition IA_in_edges (g : iaut) (r : nat) : list tedge :=
    match dget (ia_in g) r with
    | None => []
    | Some d => flat_map (fun '(q, s) => map (fun a => Edge q r a) s) d
    end.

  (** [del self.adjacencies[p][a]], KeyError when missing (incidence_automaton.py:57). *)
  Definition del_adj (m : dict nat (dict A nat)) (p : nat) (a : A) : dict nat (dict A nat) * res unit :=
    match dget m p with
    | None => (m, Raise KeyError)
    | Some d => if dmem d a then (dset m p (ddel d a), Ok tt) else (m, Raise KeyError)
    end.

  (** incidence_automaton.py:47-67. *)
  Definition IA_remove_vertex (g : iaut) (q : nat) : iaut * res unit :=
    let b := ia_base g in
    let step1 :=
      if dmem (ia_in g) q then
        match foreach (fun m (e : tedge) => del_adj m (source e) (distinguisher e))
                (au_adj b) (IA_in_edges g q) with
        | (m, Raise ex) => (mkIAut (mkAut (au_last b) m (au_q0 b) (au_final b)) (ia_in g), Raise ex)
        | (m, Ok _) => (mkIAut (mkAut (au_last b) m (au_q0 b) (au_final b)) (ddel (ia_in g) q), Ok tt)
        end
      else (g, Ok tt) in
    match step1 with
    | (g1, Raise ex) => (g1, Raise ex)
    | (g1, Ok _) =>
        let b1 := ia_base g1 in
        if dmem (au_adj b1) q then
          let out_step (m : dict nat (dict nat (list A))) (e : tedge) :=
            match dget m (target e) with
            | None => (m, Raise KeyError)
            | Some d => if dmem d q then (dset m (target e) (ddel d q), Ok tt) else (m, Ok tt)
            end in
          match foreach out_step (ia_in g1) (A_out_edges b1 q) with
          | (m, Raise ex) => (mkIAut b1 m, Raise ex)
          | (m, Ok _) =>
              (mkIAut (mkAut (au_last b1) (ddel (au_adj b1) q) (au_q0 b1) (au_final b1)) m, Ok tt)
          end
        else (g1, Ok tt)
    end.

  (** incidence_automaton.py:69-85. *)
  Definition IA_remove_edge (g : iaut) (e : tedge) : iaut * res unit :=
    match A_remove_edge (ia_base g) e with
    | (b, Raise ex) => (mkIAut b (ia_in g), Raise ex)
    | (b, Ok _) =>
        match dget (ia_in g) (target e) with
        | None => (mkIAut b (ia_in g), Raise KeyError)
        | Some d =>
            match dget d (source e) with
            | None => (mkIAut b (ia_in g), Raise KeyError)
            | Some s =>
                if mem (distinguisher e) s then
                  let s' := srem (distinguisher e) s in
                  let d' := match s' with [] => ddel d (source e) | _ => dset d (source e) s' end in
                  (mkIAut b (dset (ia_in g) (target e) d'), Ok tt)
                else (mkIAut b (ia_in g), Ok tt)
            end
        end
    end.

  (** Graph.vertices, graph.py:208-216, inherited. *)
  Definition IA_vertices (g : iaut) := A_vertices (ia_base g).
  (** Automaton.edges, automaton.py:199-211, inherited. *)
  Definition IA_edges (g : iaut) := A_edges (ia_base g).
  (** Automaton.out_edges, automaton.py:138-152, inherited. *)
  Definition IA_out_edges (g : iaut) (q : nat) := A_out_edges (ia_base g) q.

  (** Graph.clear, graph.py:199-206. *)
  Definition IA_clear (g : iaut) : iaut * res unit :=
    let b := ia_base g in
    let g0 := mkIAut (mkAut 0 (au_adj b) (au_q0 b) (au_final b)) (ia_in g) in
    foreach IA_remove_vertex g0 (IA_vertices g0).
End Automaton.
Arguments aut : clear implicits.
Arguments iaut : clear implicits.

(** ** Operations, for the statements about call histories. *)
(** The mutating methods of Automaton and IncidenceAutomaton with their arguments: graph.py:155-206, automaton.py:73-95, 154-167, 213-226, 267-277, incidence_automaton.py:29-85. *)
Inductive aop (A : Type) :=
| AAddVertex
| AAddEdge (q r : nat) (a : A)
| ARemoveEdge (e : edge A)
| ARemoveVertex (u : nat)
| ASetInitial (q : option nat) (b : bool)
| ASetFinal (q : nat) (b : bool)
| AClear.
Arguments AAddVertex {A}. Arguments AAddEdge {A}. Arguments ARemoveEdge {A}.
Arguments ARemoveVertex {A}. Arguments ASetInitial {A}. Arguments ASetFinal {A}. Arguments AClear {A}.

(** Their results (or the exception raised): same lines as aop. *)
Inductive aout (A : Type) :=
| AOutVertex (u : nat)
| AOutEdge (e : option (edge A)) (added : bool)
| AOutUnit
| AOutRaise (e : exn).
Arguments AOutVertex {A}. Arguments AOutEdge {A}. Arguments AOutUnit {A}. Arguments AOutRaise {A}.

Section Calls.
  Context {A : Type} `{EqDec A}.
  (** The result of add_vertex, graph.py:155-165. *)
  Definition aout_vertex (r : res nat) : aout A :=
    match r with Ok u => AOutVertex u | Raise e => AOutRaise e end.
  (** The result of add_edge, automaton.py:73-95. *)
  Definition aout_edge (r : res (option (edge A) * bool)) : aout A :=
    match r with Ok (e, b) => AOutEdge e b | Raise e => AOutRaise e end.
  (** The result of the methods that return None, automaton.py:154-167, graph.py:177-206. *)
  Definition aout_unit (r : res unit) : aout A :=
    match r with Ok _ => AOutUnit | Raise e => AOutRaise e end.

  (** A method call on an Automaton: dispatches aop to the methods of automaton.py:24-306 and graph.py:155-206. *)
  Definition A_call (g : aut A) (op : aop A) : aut A * aout A :=
    match op with
    | AAddVertex => let '(g', r) := A_add_vertex g in (g', aout_vertex r)
    | AAddEdge q r a => let '(g', x) := A_add_edge g q r a in (g', aout_edge x)
    | ARemoveEdge e => let '(g', r) := A_remove_edge g e in (g', aout_unit r)
    | ARemoveVertex u => let '(g', r) := A_remove_vertex g u in (g', aout_unit r)
    | ASetInitial q b => (A_set_initial g q b, AOutUnit)
    | ASetFinal q b => (A_set_final g q b, AOutUnit)
    | AClear => let '(g', r) := A_clear g in (g', aout_unit r)
    end.

  (** A method call on an IncidenceAutomaton: dispatches aop to incidence_automaton.py:12-93 and to the inherited methods, automaton.py:213-277, graph.py:199-206. *)
  Definition IA_call (g : iaut A) (op : aop A) : iaut A * aout A :=
    match op with
    | AAddVertex => let '(g', r) := IA_add_vertex g in (g', aout_vertex r)
    | AAddEdge q r a => let '(g', x) := IA_add_edge g q r a in (g', aout_edge x)
    | ARemoveEdge e => let '(g', r) := IA_remove_edge g e in (g', aout_unit r)
    | ARemoveVertex u => let '(g', r) := IA_remove_vertex g u in (g', aout_unit r)
    | ASetInitial q b => (mkIAut (A_set_initial (ia_base g) q b) (ia_in g), AOutUnit)
    | ASetFinal q b => (mkIAut (A_set_final (ia_base g) q b) (ia_in g), AOutUnit)
    | AClear => let '(g', r) := IA_clear g in (g', aout_unit r)
    end.
End Calls.

(** A program: the calls in sequence, with their results. *)
(** No counterpart in /repo: the calls made by a client, one after the other (e.g. graph.py:155-206). *)
Fixpoint runs {S Op Out} (call : S -> Op -> S * Out) (s : S) (ops : list Op) : S * list Out :=
  match ops with
  | [] => (s, [])
  | op :: ops' =>
      let '(s1, o) := call s op in
      let '(s2, os) := runs call s1 ops' in
      (s2, o :: os)
  end.

(** ** make_automaton, automaton.py:750-816. *)
Section Make.
  Context {A N : Type} `{EqDec A} `{EqDec N}.

  (** [map_vertices[qn]], automaton.py:800-803: position in [vertex_names]. *)
  Fixpoint index_of (names : list N) (x : N) : option nat :=
    match names with
    | [] => None
    | y :: l => if eqb x y then Some 0 else option_map S (index_of l x)
    end.

  (** [sorted] is the built-in sort of the names (any function returning a permutation). *)
  (** automaton.py:794-799. *)
  Definition vertex_names (sorted : list N -> list N) (transitions : list (N * N * A)) : list N :=
    sorted (sunion (sof (map (fun t => fst (fst t)) transitions)) (map (fun t => snd (fst t)) transitions)).

  (** automaton.py:805-808. *)
  Definition make_edges (names : list N) (g : aut A) (transitions : list (N * N * A)) : aut A * res unit :=
    foreach (fun g '(qn, rn, a) =>
      match index_of names qn, index_of names rn with
      | Some q, Some r => match A_add_edge g q r a with (g', Ok _) => (g', Ok tt) | (g', Raise e) => (g', Raise e) end
      | _, _ => (g, Raise KeyError)
      end) g transitions.

  (** automaton.py:809-816 ([g.vertices()] is 0..n-1 here, so [vertex_names[q]] exists). *)
  Definition make_automaton (sorted : list N -> list N) (transitions : list (N * N * A)) (q0n : N)
      (pmap_vfinal : N -> bool) : res (aut A) :=
    let names := vertex_names sorted transitions in
    match make_edges names (A_init (length names)) transitions with
    | (_, Raise e) => Raise e
    | (g, Ok _) =>
        let finish (g : aut A) :=
          Ok (fold_left (fun g q =>
                match nth_error names q with
                | Some qn => if pmap_vfinal qn then A_set_final g q true else g
                | None => g
                end) (A_vertices g) g) in
        match A_vertices g with
        | [] => finish g
        | _ =>
            match index_of names q0n with
            | None => Raise KeyError
            | Some q0 => finish (A_set_initial g (Some q0) true)
            end
        end
    end.
End Make.

(** ** NodeAutomaton, node_automaton.py:14-243. The symbol is on the target state; a vertex added
    without symbol reads as None, so labels have type [option A]. *)
Section NodeAutomaton.
  Context {A : Type} `{EqDec A}.

  (** The attributes of NodeAutomaton, node_automaton.py:23-47. *)
  Record naut := mkNAut {
    na_last : nat;
    na_adj : dict nat (dict (option A) nat);
    na_q0 : option nat;
    na_final : nat -> bool;
    na_symbol : nat -> option A;
    (** IncidenceNodeAutomaton.predecessors, incidence_node_automaton.py:27 (a defaultdict) *)
    na_pred : dict nat (list nat) }.

  (** Assignment in self.adjacencies, e.g. node_automaton.py:93. *)
  Definition na_with_adj (g : naut) m := mkNAut (na_last g) m (na_q0 g) (na_final g) (na_symbol g) (na_pred g).
  (** Assignment in self.predecessors, e.g. incidence_node_automaton.py:35. *)
  Definition na_with_pred (g : naut) p := mkNAut (na_last g) (na_adj g) (na_q0 g) (na_final g) (na_symbol g) p.

  (** NodeAutomaton.__init__ with num_vertices=0, node_automaton.py:23-47. *)
  Definition NA_init : naut := mkNAut 0 [] (Some 0) (fun _ => false) (fun _ => None) [].

  (** node_automaton.py:49-53. *)
  Definition NA_add_vertex (g : naut) (a : option A) : naut * res nat :=
    let u := na_last g in
    let sym := match a with None => na_symbol g | Some _ => fun x => if eqb x u then a else na_symbol g x end in
    (mkNAut (S u) (dset (na_adj g) u []) (na_q0 g) (na_final g) sym (na_pred g), Ok u).

  (** Graph.vertices, graph.py:208-216, inherited. *)
  Definition NA_vertices (g : naut) := dkeys (na_adj g).

  (** node_automaton.py:135-149 ([adjacencies[q]] raises KeyError on an unknown vertex). *)
  Definition NA_out_edges (g : naut) (q : nat) : res (list (edge (option A))) :=
    match dget (na_adj g) q with
    | None => Raise KeyError
    | Some d => Ok (map (fun '(a, r) => Edge q r a) d)
    end.

  (** node_automaton.py:197-209. *)
  Definition NA_edges (g : naut) : list (edge (option A)) :=
    flat_map (fun '(q, d) => map (fun '(a, r) => Edge q r a) d) (na_adj g).

  (** NodeAutomaton.add_edge, node_automaton.py:70-94. *)
  Definition NA_add_edge (g : naut) (q r : nat) : naut * res (option (edge (option A)) * bool) :=
    let a := na_symbol g r in
    match dget (na_adj g) q with
    | None => (g, Raise KeyError)
    | Some d =>
        if dmem d a then (g, Ok (None, false))
        else (na_with_adj g (dset (na_adj g) q (dset d a r)), Ok (Some (Edge q r a), true))
    end.

  (** NodeAutomaton.remove_edge, node_automaton.py:151-165. *)
  Definition NA_remove_edge (g : naut) (e : edge (option A)) : naut :=
    let a := na_symbol g (target e) in
    match dget (na_adj g) (source e) with
    | None => g
    | Some d => if dmem d a then na_with_adj g (dset (na_adj g) (source e) (ddel d a)) else g
    end.

  (** predecessors as a defaultdict(set). *)
  (** self.predecessors[r], incidence_node_automaton.py:27. *)
  Definition preds_of (p : dict nat (list nat)) (r : nat) : list nat :=
    match dget p r with None => [] | Some s => s end.

  (** IncidenceNodeAutomaton.add_edge, incidence_node_automaton.py:31-36. *)
  Definition INA_add_edge (g : naut) (q r : nat) : naut * res (option (edge (option A)) * bool) :=
    match NA_add_edge g q r with
    | (g1, Ok (e, true)) =>
        (na_with_pred g1 (dset (na_pred g1) r (sadd q (preds_of (na_pred g1) r))), Ok (e, true))
    | (g1, x) => (g1, x)
    end.

  (** IncidenceNodeAutomaton.in_edges, incidence_node_automaton.py:38-43. *)
  Definition INA_in_edges (g : naut) (r : nat) : list (edge (option A)) :=
    map (fun q => Edge q r (na_symbol g r)) (preds_of (na_pred g) r).

  (** IncidenceNodeAutomaton.remove_edge, incidence_node_automaton.py:67-72 ([set.remove] raises
      KeyError; reading the defaultdict may create an empty entry, not observable). *)
  Definition INA_remove_edge (g : naut) (e : edge (option A)) : naut * res unit :=
    let g1 := NA_remove_edge g e in
    let s := preds_of (na_pred g1) (target e) in
    if mem (source e) s
    then (na_with_pred g1 (dset (na_pred g1) (target e) (srem (source e) s)), Ok tt)
    else (g1, Raise KeyError).

  (** del self.adjacencies[p][a], incidence_node_automaton.py:55. *)
  Definition ndel_adj (m : dict nat (dict (option A) nat)) (p : nat) (a : option A)
      : dict nat (dict (option A) nat) * res unit :=
    match dget m p with
    | None => (m, Raise KeyError)
    | Some d => if dmem d a then (dset m p (ddel d a), Ok tt) else (m, Raise KeyError)
    end.

  (** IncidenceNodeAutomaton.remove_vertex, incidence_node_automaton.py:45-65. *)
  Definition INA_remove_vertex (g : naut) (q : nat) : naut * res unit :=
    let step1 :=
      if dmem (na_pred g) q then
        match foreach (fun m p => ndel_adj m p (na_symbol g q)) (na_adj g) (preds_of (na_pred g) q) with
        | (m, Raise ex) => (na_with_adj g m, Raise ex)
        | (m, Ok _) => (na_with_pred (na_with_adj g m) (ddel (na_pred g) q), Ok tt)
        end
      else (g, Ok tt) in
    match step1 with
    | (g1, Raise ex) => (g1, Raise ex)
    | (g1, Ok _) =>
        match dget (na_adj g1) q with
        | None => (g1, Ok tt)
        | Some d =>
            let p := fold_left (fun p r => if mem q (preds_of p r) then dset p r (srem q (preds_of p r)) else p)
                       (map snd d) (na_pred g1) in
            (na_with_pred (na_with_adj g1 (ddel (na_adj g1) q)) p, Ok tt)
        end
    end.

  (** The mutating methods of IncidenceNodeAutomaton with their arguments, incidence_node_automaton.py:31-72, node_automaton.py:49-53. *)
  Inductive nop := NAddVertex (a : option A) | NAddEdge (q r : nat) | NRemoveEdge (e : edge (option A))
    | NRemoveVertex (q : nat).

  (** A method call on an IncidenceNodeAutomaton: dispatches nop to incidence_node_automaton.py:31-72, node_automaton.py:49-53. *)
  Definition INA_call (g : naut) (op : nop) : naut * aout (option A) :=
    match op with
    | NAddVertex a => let '(g', r) := NA_add_vertex g a in (g', aout_vertex r)
    | NAddEdge q r => let '(g', x) := INA_add_edge g q r in (g', aout_edge x)
    | NRemoveEdge e => let '(g', r) := INA_remove_edge g e in (g', aout_unit r)
    | NRemoveVertex u => let '(g', r) := INA_remove_vertex g u in (g', aout_unit r)
    end.
End NodeAutomaton.
Arguments naut : clear implicits.
Arguments nop : clear implicits.
