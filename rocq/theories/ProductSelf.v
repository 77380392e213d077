(** Model of deterministic_intersection and deterministic_union when [g12] is also one of the operands, or both: the
    operands grow while parallel_breadth_first_search explores them. *)
From Verif Require Import Base Graph Automaton PBFS.

Section M.
  Context {A : Type} `{EqDec A}.
  Notation pstate := (aut A * dict qpair nat)%type.

  (** An operand, deterministic_intersection.py:58-63, deterministic_union.py:56-61: None is the object [g12] itself, read
      in its current state; [Some g1] is another object, which nothing changes. *)
  Definition operand (x : option (aut A)) (g12 : aut A) : aut A := match x with None => g12 | Some g => g end.

  Variables x1 x2 : option (aut A).

  (** add_product_vertex, product_mixin.py:32-60: the operands are read after add_vertex (54), and again after
      set_initial (56). *)
  Definition self_add_vertex (op : bool -> bool -> bool) (s : pstate) (q1 q2 : option nat) : pstate * res nat :=
    let '(g12, m) := s in
    match A_add_vertex g12 with
    | (g, Raise e) => ((g, m), Raise e)
    | (g, Ok q12) =>
        let g := if op (A_is_initial_opt (operand x1 g) q1) (A_is_initial_opt (operand x2 g) q2) then A_set_initial g (Some q12) true else g in
        let g := if op (A_is_final_opt (operand x1 g) q1) (A_is_final_opt (operand x2 g) q2) then A_set_final g q12 true else g in
        ((g, dset m (q1, q2) q12), Ok q12)
    end.

  (** get_or_create_product_vertex, product_mixin.py:117-143. *)
  Definition self_get_or_create (op : bool -> bool -> bool) (s : pstate) (q1 q2 : option nat) : pstate * res nat :=
    match q1, q2 with
    | None, None => (s, Raise RuntimeError)
    | _, _ => match dget (snd s) (q1, q2) with
              | Some q12 => (s, Ok q12)
              | None => self_add_vertex op s q1 q2
              end
    end.

  (** add_product_edge, product_mixin.py:62-99. *)
  Definition self_add_edge (op : bool -> bool -> bool) (s : pstate) (e1 e2 : medge) (a : A) : pstate * res unit :=
    match self_get_or_create op s (medge_source e1) (medge_source e2) with
    | (s1, Raise e) => (s1, Raise e)
    | (s1, Ok q12) =>
        match self_get_or_create op s1 (medge_target e1) (medge_target e2) with
        | (s2, Raise e) => (s2, Raise e)
        | (s2, Ok r12) =>
            match A_add_edge (fst s2) q12 r12 a with
            | (g, Raise e) => ((g, snd s2), Raise e)
            | (g, Ok _) => ((g, snd s2), Ok tt)
            end
        end
    end.

  (** DeterministicIntersectionVisitor.examine_edge, deterministic_intersection.py:33-55. *)
  Definition self_inter_edge (s : pstate) (e1 e2 : medge) (a : A) : pstate * res unit :=
    match e1 with
    | None => (s, Raise AttributeError)
    | Some (_, None) => (s, Ok tt)
    | Some (_, Some _) =>
        match e2 with
        | None => (s, Raise AttributeError)
        | Some (_, None) => (s, Ok tt)
        | Some (_, Some _) => self_add_edge andb s e1 e2 a
        end
    end.

  Section Run.
    Variable ord : set_order A.
    Variable examine_edge : pstate -> medge -> medge -> A -> pstate * res unit.
    Variable if_push : medge -> medge -> bool.

    (** The loop on symbols, parallel_breadth_first_search.py:270-286, both operands read in the current state; the hooks
        that the two visitors do not define are left out. *)
    Fixpoint self_symbols (q1 q2 : option nat) (syms : list A) (s : pstate) (stack : list qpair) (col : dict qpair color)
        : pstate * list qpair * dict qpair color * res unit :=
      match syms with
      | [] => (s, stack, col, Ok tt)
      | a :: syms' =>
          let r1 := odelta (operand x1 (fst s)) q1 a in
          let r2 := odelta (operand x2 (fst s)) q2 a in
          let e1 := get_edge (operand x1 (fst s)) q1 a in
          let e2 := get_edge (operand x2 (fst s)) q2 a in
          match examine_edge s e1 e2 a with
          | (s1, Raise e) => (s1, stack, col, Raise e)
          | (s1, Ok _) =>
              if is_white (color_of col (r1, r2))
              then self_symbols q1 q2 syms' s1 (if if_push e1 e2 then stack ++ [(r1, r2)] else stack) (dset col (r1, r2) GRAY)
              else self_symbols q1 q2 syms' s1 stack col
          end
      end.

    (** The main loop, parallel_breadth_first_search.py:267-288. *)
    Fixpoint self_loop (fuel n : nat) (s : pstate) (stack : list qpair) (col : dict qpair color) : option (pstate * res unit) :=
      match fuel with
      | 0 => None
      | S fuel' =>
          match stack with
          | [] => Some (s, Ok tt)
          | (q1, q2) :: stack' =>
              match self_symbols q1 q2 (ord n (sunion (A_sigma (operand x1 (fst s)) q1) (A_sigma (operand x2 (fst s)) q2))) s stack' col with
              | (s', _, _, Raise e) => Some (s', Raise e)
              | (s', stack1, col1, Ok _) => self_loop fuel' (S n) s' stack1 (dset col1 (q1, q2) BLACK)
              end
          end
      end.
  End Run.

  (** deterministic_intersection(g1, g2, g12) with the default [vis], deterministic_intersection.py:58-89; the initial
      states are read at parallel_breadth_first_search.py:251-252. *)
  Definition self_intersection (g12 : aut A) (ord : set_order A) (fuel : nat) : option (aut A * res unit) :=
    match self_loop ord self_inter_edge inter_push fuel 0 (g12, []) [(A_initial (operand x1 g12), A_initial (operand x2 g12))] [] with
    | None => None
    | Some ((g, _), r) => Some (g, r)
    end.

  (** deterministic_union(g1, g2, g12) with the default [vis], deterministic_union.py:56-79. *)
  Definition self_union (g12 : aut A) (ord : set_order A) (fuel : nat) : option (aut A * res unit) :=
    match self_loop ord (self_add_edge orb) always_push fuel 0 (g12, []) [(A_initial (operand x1 g12), A_initial (operand x2 g12))] [] with
    | None => None
    | Some ((g, _), r) => Some (g, r)
    end.
End M.
