(** Model of the Thompson constructions, src/pybgl/thompson_compile_nfa.py:44-363. An exception carries
    no state: a half-mutated argument is not observed afterwards (the functions consume their arguments). *)
From Verif Require Import Base Graph Automaton Nfa.

Section Thompson.
  Context {A : Type} `{EqDec A}.
  (** EPSILON, nfa.py:18: the default epsilon of every Nfa. *)
  Variable eps : A.

  (** (nfa, q0, f) *)
  Notation frag := (nfa A * nat * nat)%type.


  (** nfa.add_edge(q, r, a), whose result is ignored (e.g. thompson_compile_nfa.py:59). *)
  Definition add_edge (g : nfa A) (q r : nat) (a : A) : nfa A := fst (N_add_edge g q r a).
  (** q = nfa.add_vertex() (e.g. thompson_compile_nfa.py:85) *)
  Definition add_vertex (g : nfa A) : nfa A * nat := (fst (N_add_vertex g), nf_last g).

  (** literal, thompson_compile_nfa.py:44-61. *)
  Definition literal (a : A) : frag :=
    let g := N_init 2 [] eps in
    let g := add_edge g 0 1 a in
    (N_set_final g 1 true, 0, 1).

  (** bracket, thompson_compile_nfa.py:345-363; [chars] is the set of characters in iteration order. *)
  Definition bracket (chars : list A) : frag :=
    let g := N_set_final (N_init 2 [] eps) 1 true in
    (fold_left (fun g a => add_edge g 0 1 a) chars g, 0, 1).

  (** insert_automaton, thompson_compile_nfa.py:64-96, called with [map21 = None]: copy of the vertices,
      then of the edges (the parallel edges reported together by Nfa.edges give a single one). *)
  Fixpoint insert_vertices (g2 : nfa A) (qs : list nat) (g1 : nfa A) (map21 : dict nat nat) : nfa A * dict nat nat :=
    match qs with
    | [] => (g1, map21)
    | q2 :: qs' =>
        if dmem map21 q2 then insert_vertices g2 qs' g1 map21
        else
          let '(g1, q1) := add_vertex g1 in
          let g1 := if N_is_final g2 q2 then N_set_final g1 q1 true else g1 in
          insert_vertices g2 qs' g1 (dset map21 q2 q1)
    end.
  (** the second loop of insert_automaton, thompson_compile_nfa.py:89-95. *)
  Fixpoint insert_edges (es : list (edge (A * list nat))) (g1 : nfa A) (map21 : dict nat nat) : res (nfa A) :=
    match es with
    | [] => Ok g1
    | e2 :: es' =>
        match dget map21 (source e2), dget map21 (target e2) with
        | Some q1, Some r1 => insert_edges es' (add_edge g1 q1 r1 (N_label e2)) map21
        | _, _ => Raise KeyError
        end
    end.
  (** insert_automaton, thompson_compile_nfa.py:64-96. *)
  Definition insert_automaton (g1 g2 : nfa A) : res (nfa A * dict nat nat) :=
    let '(g1, map21) := insert_vertices g2 (N_vertices g2) g1 [] in
    rbind (insert_edges (N_edges g2) g1 map21) (fun g1 => Ok (g1, map21)).

  (** [map21[q]] *)
  Definition lookup (m : dict nat nat) (q : nat) : res nat :=
    match dget m q with Some r => Ok r | None => Raise KeyError end.

  (** concatenation, thompson_compile_nfa.py:99-133. *)
  Definition concatenation (x1 x2 : frag) : res frag :=
    let '(nfa1, q01, f1) := x1 in
    let '(nfa2, q02, f2) := x2 in
    rbind (insert_automaton nfa1 nfa2) (fun '(nfa1, map21) =>
    rbind (lookup map21 q02) (fun r =>
    let nfa1 := add_edge nfa1 f1 r (nf_eps nfa1) in
    let nfa1 := N_set_initials nfa1 [q01] in
    let nfa1 := N_set_final nfa1 f1 false in
    rbind (lookup map21 f2) (fun f => Ok (nfa1, q01, f)))).

  (** alternation, thompson_compile_nfa.py:136-176. *)
  Definition alternation (x1 x2 : frag) : res frag :=
    let '(nfa1, q01, f1) := x1 in
    let '(nfa2, q02, f2) := x2 in
    let eps1 := nf_eps nfa1 in
    rbind (insert_automaton nfa1 nfa2) (fun '(nfa1, map21) =>
    let '(nfa1, q0) := add_vertex nfa1 in
    let nfa1 := add_edge nfa1 q0 q01 eps1 in
    rbind (lookup map21 q02) (fun r =>
    let nfa1 := add_edge nfa1 q0 r eps1 in
    let nfa1 := N_set_initials nfa1 [q0] in
    let '(nfa1, f) := add_vertex nfa1 in
    let nfa1 := add_edge nfa1 f1 f eps1 in
    rbind (lookup map21 f2) (fun f21 =>
    let nfa1 := add_edge nfa1 f21 f eps1 in
    let nfa1 := N_set_final nfa1 f1 false in
    let nfa1 := N_set_final nfa1 f21 false in
    let nfa1 := N_set_final nfa1 f true in
    Ok (nfa1, q0, f)))).

  (** zero_or_one, thompson_compile_nfa.py:179-200. *)
  Definition zero_or_one (x : frag) : frag :=
    let '(nfa, q0, f) := x in
    (add_edge nfa q0 f (nf_eps nfa), q0, f).

  (** zero_or_more, thompson_compile_nfa.py:203-230. *)
  Definition zero_or_more (x : frag) : frag :=
    let '(nfa, q0, f) := x in
    let e := nf_eps nfa in
    let '(nfa, new_q0) := add_vertex nfa in
    let '(nfa, new_f) := add_vertex nfa in
    let nfa := add_edge nfa new_q0 q0 e in
    let nfa := add_edge nfa f new_f e in
    let nfa := add_edge nfa new_q0 new_f e in
    let nfa := add_edge nfa new_f new_q0 e in
    let nfa := N_set_initials nfa [new_q0] in
    let nfa := N_set_final nfa f false in
    let nfa := N_set_final nfa new_f true in
    (nfa, new_q0, new_f).

  (** one_or_more, thompson_compile_nfa.py:233-259. *)
  Definition one_or_more (x : frag) : frag :=
    let '(nfa, q0, f) := x in
    let e := nf_eps nfa in
    let '(nfa, new_q0) := add_vertex nfa in
    let '(nfa, new_f) := add_vertex nfa in
    let nfa := add_edge nfa new_q0 q0 e in
    let nfa := add_edge nfa f new_f e in
    let nfa := add_edge nfa new_f new_q0 e in
    let nfa := N_set_initials nfa [new_q0] in
    let nfa := N_set_final nfa f false in
    let nfa := N_set_final nfa new_f true in
    (nfa, new_q0, new_f).

  (** repetition, thompson_compile_nfa.py:262-293; the deep copy is the value of [nfa] on entry. *)
  Fixpoint repetition_loop (k : nat) (ori x : frag) : res frag :=
    match k with
    | 0 => Ok x
    | S k' =>
        let '(nfa, q0, f) := x in
        rbind (concatenation (N_set_final nfa f false, q0, f) ori) (repetition_loop k' ori)
    end.
  (** repetition, thompson_compile_nfa.py:262-293. *)
  Definition repetition (x : frag) (m : nat) : res frag :=
    match m with
    | 0 => Ok (N_set_final (N_init 1 [] eps) 0 true, 0, 0)
    | S k => repetition_loop k x x
    end.

  (** the loop of repetition_range, thompson_compile_nfa.py:335-337. *)
  Fixpoint range_loop (k : nat) (ori : frag) (x : frag) (final_states : list nat) : res (frag * list nat) :=
    match k with
    | 0 => Ok (x, final_states)
    | S k' => rbind (concatenation x ori) (fun x => range_loop k' ori x (sadd (snd x) final_states))
    end.

  (** repetition_range, thompson_compile_nfa.py:296-342; [n = None] means unbounded and [ord] is the
      order in which the set [final_states] is iterated. Line 330 drops the initial state returned by
      [repetition] and keeps the one of the argument. *)
  Definition repetition_range (ord : set_order nat) (x : frag) (m : nat) (n : option nat) : res frag :=
    let '(nfa, q0, f) := x in
    match m, n with
    | 0, Some 1 => Ok (zero_or_one x)
    | 0, None => Ok (zero_or_more x)
    | 1, None => Ok (one_or_more x)
    | _, None =>
        rbind (repetition x (m - 1)) (fun x1 => concatenation x1 (one_or_more x))
    | _, Some n =>
        if m <=? n then
          rbind (repetition x m) (fun '(nfa, _, f) =>
          rbind (range_loop (n - m) x (nfa, q0, f) [f]) (fun '((nfa, q0, f), final_states) =>
          let e := nf_eps nfa in
          let nfa := fold_left (fun nfa pred_f => if pred_f =? f then nfa else add_edge nfa pred_f f e) (ord 0 final_states) nfa in
          Ok (nfa, q0, f)))
        else Raise AssertionError
    end.
End Thompson.
