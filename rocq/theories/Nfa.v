(** Model of src/pybgl/nfa.py (Nfa) and src/pybgl/moore_determination.py. Labels have an abstract type
    [A] with decidable equality; [EPSILON] is one of them. *)
From Verif Require Import Base Graph Automaton.

Section Nfa.
  Context {A : Type} `{EqDec A}.

  (** Nfa, nfa.py:21-53; [adjacencies[q][a][r]] is the set of the numbers of the parallel edges.
      The final states are a function, as for Automaton. *)
  Record nfa := mkNfa {
    nf_last : nat;
    nf_adj : dict nat (dict A (dict nat (list nat)));
    nf_init : list nat;
    nf_final : nat -> bool;
    nf_eps : A }.

  (** An update of self.adjacencies, e.g. nfa.py:153-162. *)
  Definition nf_set_adj (g : nfa) adj : nfa := mkNfa (nf_last g) adj (nf_init g) (nf_final g) (nf_eps g).

  (** edges carry (a, n), n being a number in add_edge and a set of numbers in out_edges and edges. *)
  Notation nedge := (edge (A * list nat)).

  (** Graph.add_vertex, graph.py:155-165. *)
  Definition N_add_vertex (g : nfa) : nfa * res nat :=
    let u := nf_last g in
    (mkNfa (S u) (dset (nf_adj g) u []) (nf_init g) (nf_final g) (nf_eps g), Ok u).

  (** The loop of Graph.__init__, graph.py:152-153. *)
  Fixpoint N_add_vertices (n : nat) (g : nfa) : nfa :=
    match n with O => g | S n' => N_add_vertices n' (fst (N_add_vertex g)) end.

  (** Nfa.__init__, nfa.py:27-53 (default map of final states). *)
  Definition N_init (num_vertices : nat) (initials : list nat) (epsilon : A) : nfa :=
    N_add_vertices num_vertices
      (mkNfa 0 [] (match initials with [] => [0] | _ => initials end) (fun _ => false) epsilon).

  (** Graph.vertices, graph.py:208-216. *)
  Definition N_vertices (g : nfa) : list nat := dkeys (nf_adj g).

  (** [self.adjacencies.get(q, dict()).get(a, dict())], nfa.py:70. *)
  Definition N_get (g : nfa) (q : nat) (a : A) : dict nat (list nat) :=
    match dget (nf_adj g) q with
    | None => []
    | Some arn => match dget arn a with None => [] | Some rn => rn end
    end.

  (** Nfa.delta_one_step, nfa.py:55-73. *)
  Definition N_delta_one_step (g : nfa) (qs : list nat) (a : A) : list nat :=
    sof (flat_map (fun q => dkeys (N_get g q a)) qs).

  (** Nfa.edges, Nfa.out_edges, nfa.py:181-211. *)
  Definition out_of (q : nat) (arn : dict A (dict nat (list nat))) : list nedge :=
    flat_map (fun '(a, rn) => map (fun '(r, n) => Edge q r (a, n)) rn) arn.
  (** Nfa.edges, nfa.py:198-211. *)
  Definition N_edges (g : nfa) : list nedge := flat_map (fun '(q, arn) => out_of q arn) (nf_adj g).
  (** Nfa.out_edges, nfa.py:181-196. *)
  Definition N_out_edges (g : nfa) (q : nat) : list nedge :=
    match dget (nf_adj g) q with None => [] | Some arn => out_of q arn end.
  (** Graph.num_edges, graph.py:264-271, inherited. *)
  Definition N_num_edges (g : nfa) : nat := length (N_edges g).

  (** Nfa.delta_epsilon, nfa.py:75-92; None when the fuel is exhausted. *)
  Fixpoint eps_loop (fuel : nat) (g : nfa) (ret qs_new : list nat) : option (list nat) :=
    match fuel with
    | 0 => None
    | S fuel' =>
        match qs_new with
        | [] => Some ret
        | _ =>
            let ret' := sunion ret qs_new in
            eps_loop fuel' g ret' (sdiff (N_delta_one_step g qs_new (nf_eps g)) ret')
        end
    end.
  (** enough loop turns: C22 proves that None is never returned. *)
  Definition eps_fuel (g : nfa) : nat := N_num_edges g + 2.
  (** Nfa.delta_epsilon, nfa.py:75-92. *)
  Definition N_delta_epsilon (g : nfa) (qs : list nat) : option (list nat) := eps_loop (eps_fuel g) g [] qs.

  (** What follows a call which may not terminate (no counterpart in /repo: the fuel of nfa.py:75-92). *)
  Definition obind {X Y} (o : option X) (f : X -> option Y) : option Y :=
    match o with None => None | Some x => f x end.
  (** [[f(x) for x in l]] for an [f] that may not terminate (e.g. nfa.py:377) *)
  Fixpoint omap {X Y} (f : X -> option Y) (l : list X) : option (list Y) :=
    match l with
    | [] => Some []
    | x :: l' => obind (f x) (fun y => obind (omap f l') (fun ys => Some (y :: ys)))
    end.

  (** Nfa.delta, nfa.py:94-111. *)
  Definition N_delta (g : nfa) (q : nat) (a : A) : option (list nat) :=
    obind (N_delta_epsilon g [q]) (fun qs => N_delta_epsilon g (N_delta_one_step g qs a)).

  (** Nfa.sigma, nfa.py:113-133 (on a state). *)
  Definition N_sigma (g : nfa) (q : nat) : option (list A) :=
    obind (N_delta_epsilon g [q]) (fun qs =>
      Some (sof (flat_map (fun q => match dget (nf_adj g) q with
                                    | None => []
                                    | Some arn => filter (fun a => negb (eqb a (nf_eps g))) (dkeys arn) end) qs))).

  (** Nfa.add_edge, nfa.py:135-163: the source is created when it is missing, without updating
      [last_vertex_id]. *)
  Definition N_add_edge (g : nfa) (q r : nat) (a : A) : nfa * res (edge (A * nat) * bool) :=
    let arn := match dget (nf_adj g) q with None => [] | Some arn => arn end in
    let rn := match dget arn a with None => [] | Some rn => rn end in
    let s := match dget rn r with None => [] | Some s => s end in
    let n := length s + 1 in
    (nf_set_adj g (dset (nf_adj g) q (dset arn a (dset rn r (sadd n s)))), Ok (Edge q r (a, n), true)).

  (** Nfa.remove_edge, nfa.py:165-179: every parallel edge is removed. *)
  Definition N_remove_edge {D} (g : nfa) (e : edge (A * D)) : nfa * res unit :=
    let q := source e in
    let a := fst (distinguisher e) in
    match dget (nf_adj g) q with
    | None => (g, Ok tt)
    | Some arn =>
        match dget arn a with
        | None => (g, Ok tt)
        | Some rn =>
            if dmem rn (target e)
            then (nf_set_adj g (dset (nf_adj g) q (dset arn a (ddel rn (target e)))), Ok tt)
            else (g, Ok tt)
        end
    end.

  (** Graph.remove_vertex, graph.py:177-197, with the methods of Nfa. *)
  Definition N_remove_vertex (g : nfa) (u : nat) : nfa * res unit :=
    let in_step (g : nfa) (e : nedge) := if u =? target e then N_remove_edge g e else (g, Ok tt) in
    match foreach in_step g (N_edges g) with
    | (g1, Raise ex) => (g1, Raise ex)
    | (g1, Ok _) =>
        match foreach N_remove_edge g1 (N_out_edges g1 u) with
        | (g2, Raise ex) => (g2, Raise ex)
        | (g2, Ok _) =>
            if dmem (nf_adj g2) u then (nf_set_adj g2 (ddel (nf_adj g2) u), Ok tt) else (g2, Raise KeyError)
        end
    end.

  (** Graph.clear, graph.py:199-206, with the methods of Nfa: the initial states and the final flags are kept. *)
  Definition N_clear (g : nfa) : nfa * res unit :=
    let g0 := mkNfa 0 (nf_adj g) (nf_init g) (nf_final g) (nf_eps g) in
    foreach N_remove_vertex g0 (N_vertices g0).

  (** Nfa.alphabet, nfa.py:213-226. *)
  Definition N_alphabet (g : nfa) : list A :=
    sof (flat_map (fun '(_, arn) => filter (fun a => negb (eqb a (nf_eps g))) (dkeys arn)) (nf_adj g)).

  (** Nfa.set_initial, set_initials, is_initial, set_final, is_final, finals: nfa.py:228-315, 380-387. *)
  Definition N_set_initial (g : nfa) (q : nat) (b : bool) : nfa :=
    mkNfa (nf_last g) (nf_adj g) (if b then sadd q (nf_init g) else srem q (nf_init g)) (nf_final g) (nf_eps g).
  (** Nfa.set_initials, nfa.py:266-273. *)
  Definition N_set_initials (g : nfa) (q0s : list nat) : nfa :=
    mkNfa (nf_last g) (nf_adj g) (sof q0s) (nf_final g) (nf_eps g).
  (** Nfa.is_initial, nfa.py:252-264. *)
  Definition N_is_initial (g : nfa) (q : nat) : bool := mem q (nf_init g).
  (** Nfa.set_final, nfa.py:290-301. *)
  Definition N_set_final (g : nfa) (q : nat) (b : bool) : nfa :=
    mkNfa (nf_last g) (nf_adj g) (nf_init g) (fun x => if x =? q then b else nf_final g x) (nf_eps g).
  (** Nfa.is_final, nfa.py:303-315. *)
  Definition N_is_final (g : nfa) (q : nat) : bool := nf_final g q.
  (** Nfa.finals, nfa.py:380-387. *)
  Definition N_finals (g : nfa) : list nat := filter (N_is_final g) (N_vertices g).

  (** Nfa.label, nfa.py:275-288. *)
  Definition N_label {D} (e : edge (A * D)) : A := fst (distinguisher e).

  (** the union of the [N_delta g q a], [q] in [qs]: nfa.py:377, moore_determination.py:65. *)
  Definition N_step (g : nfa) (qs : list nat) (a : A) : option (list nat) :=
    obind (omap (fun q => N_delta g q a) qs) (fun sets => Some (sof (concat sets))).

  (** Nfa.delta_word, nfa.py:360-378. *)
  Fixpoint word_loop (g : nfa) (qs : list nat) (w : list A) : option (list nat) :=
    match w with
    | [] => Some qs
    | a :: w' => match qs with
                 | [] => Some []
                 | _ => obind (N_step g qs a) (fun qs' => word_loop g qs' w')
                 end
    end.
  (** Nfa.delta_word, nfa.py:360-378. *)
  Definition N_delta_word (g : nfa) (w : list A) : option (list nat) :=
    obind (N_delta_epsilon g (nf_init g)) (fun qs => word_loop g qs w).

  (** Nfa.accepts, nfa.py:342-358. *)
  Definition N_accepts (g : nfa) (w : list A) : option bool :=
    obind (N_delta_word g w) (fun qs => Some (existsb (N_is_final g) qs)).

  (** The mutating calls, to run arbitrary programs on an Nfa (nfa.py:135-179, 228-301; graph.py:155-206). *)
  Inductive nfop :=
  | FAddVertex | FAddEdge (q r : nat) (a : A) | FRemoveEdge (q r : nat) (a : A) | FRemoveVertex (u : nat)
  | FSetInitial (q : nat) (b : bool) | FSetInitials (qs : list nat) | FSetFinal (q : nat) (b : bool) | FClear.
  (** Their results, nfa.py:135-163, graph.py:155-165. *)
  Inductive nfout := FOutUnit | FOutVertex (u : nat) | FOutEdge (q r : nat) (a : A) (n : nat) | FOutRaise (e : exn).
  (** One call, nfa.py:135-179, 228-301; graph.py:155-206. *)
  Definition N_call (g : nfa) (op : nfop) : nfa * nfout :=
    match op with
    | FAddVertex => match N_add_vertex g with (g', Ok u) => (g', FOutVertex u) | (g', Raise e) => (g', FOutRaise e) end
    | FAddEdge q r a =>
        match N_add_edge g q r a with
        | (g', Ok (e, _)) => (g', FOutEdge (source e) (target e) (fst (distinguisher e)) (snd (distinguisher e)))
        | (g', Raise e) => (g', FOutRaise e)
        end
    | FRemoveEdge q r a =>
        match N_remove_edge g (Edge q r (a, tt)) with (g', Ok _) => (g', FOutUnit) | (g', Raise e) => (g', FOutRaise e) end
    | FRemoveVertex u =>
        match N_remove_vertex g u with (g', Ok _) => (g', FOutUnit) | (g', Raise e) => (g', FOutRaise e) end
    | FSetInitial q b => (N_set_initial g q b, FOutUnit)
    | FSetInitials qs => (N_set_initials g qs, FOutUnit)
    | FSetFinal q b => (N_set_final g q b, FOutUnit)
    | FClear => match N_clear g with (g', Ok _) => (g', FOutUnit) | (g', Raise e) => (g', FOutRaise e) end
    end.

  (** ** moore_determination, moore_determination.py:11-73, with [dfa = None]. *)
  (** a frozenset of states is a list, compared as a set (the keys of map_qs_q, moore_determination.py:36, 57, 68) *)
  Definition seteqb (s t : list nat) : bool := forallb (fun x => mem x t) s && forallb (fun x => mem x s) t.
  (** [map_qs_q.get(qs)] (moore_determination.py:57, 68) *)
  Fixpoint fget (m : list (list nat * nat)) (qs : list nat) : option nat :=
    match m with
    | [] => None
    | (k, q) :: m' => if seteqb k qs then Some q else fget m' qs
    end.

  (** dfa_add_state, moore_determination.py:35-39. *)
  Definition dfa_add_state (g : nfa) (d : aut A) (m : list (list nat * nat)) (qs : list nat)
      : aut A * list (list nat * nat) * res nat :=
    match A_add_vertex d with
    | (d, Raise e) => (d, m, Raise e)
    | (d, Ok q) => (if existsb (N_is_final g) qs then A_set_final d q true else d, m ++ [(qs, q)], Ok q)
    end.

  (** the loop on the symbols, moore_determination.py:63-72; None: a sub-computation did not terminate. *)
  Fixpoint moore_symbols (g : nfa) (q : nat) (qs : list nat) (syms : list A) (d : aut A)
      (m : list (list nat * nat)) (todo : list (list nat)) : option (aut A * list (list nat * nat) * list (list nat) * res unit) :=
    match syms with
    | [] => Some (d, m, todo, Ok tt)
    | a :: syms' =>
        obind (N_step g qs a) (fun rs =>
          match (match fget m rs with
                 | Some r => (d, m, todo, Ok r)
                 | None => let '(d, m, o) := dfa_add_state g d m rs in (d, m, todo ++ [rs], o)
                 end) with
          | (d, m, todo, Raise e) => Some (d, m, todo, Raise e)
          | (d, m, todo, Ok r) =>
              match A_add_edge d q r a with
              | (d, Raise e) => Some (d, m, todo, Raise e)
              | (d, Ok _) => moore_symbols g q qs syms' d m todo
              end
          end)
    end.

  (** sigma_, moore_determination.py:58-62. *)
  Definition moore_sigma (g : nfa) (complete : bool) (qs : list nat) : option (list A) :=
    if complete then Some (N_alphabet g)
    else obind (omap (N_sigma g) qs) (fun l => Some (sof (concat l))).

  (** the main loop, moore_determination.py:55-72; [opop] orders [unprocessed_qs] (the first one is
      popped) and [osym] the set of symbols. *)
  Fixpoint moore_loop (g : nfa) (complete : bool) (opop : set_order (list nat)) (osym : set_order A)
      (fuel n : nat) (d : aut A) (m : list (list nat * nat)) (todo : list (list nat)) : option (aut A * res unit) :=
    match fuel with
    | 0 => None
    | S fuel' =>
        match opop n todo with
        | [] => Some (d, Ok tt)
        | qs :: todo' =>
            match fget m qs with
            | None => Some (d, Raise KeyError)
            | Some q =>
                obind (moore_sigma g complete qs) (fun sigma =>
                  obind (moore_symbols g q qs (osym n sigma) d m todo') (fun '(d, m, todo, o) =>
                    match o with
                    | Raise e => Some (d, Raise e)
                    | Ok _ => moore_loop g complete opop osym fuel' (S n) d m todo
                    end))
            end
        end
    end.

  (** moore_determination, moore_determination.py:11-73. *)
  Definition moore_determination (g : nfa) (complete : bool) (opop : set_order (list nat)) (osym : set_order A)
      (fuel : nat) : option (aut A * res unit) :=
    obind (N_delta_epsilon g (nf_init g)) (fun q0s =>
      match dfa_add_state g (A_init 0) [] q0s with
      | (d, m, Raise e) => Some (d, Raise e)
      | (d, m, Ok _) => moore_loop g complete opop osym fuel 0 d m [q0s]
      end).
End Nfa.
Arguments nfa : clear implicits.
Arguments nfop : clear implicits.
Arguments nfout : clear implicits.
