(** Model of [t.insert(t)]: trie_deterministic_fusion (trie.py:98-113) when its two arguments are one object, so that every change made to the first one is seen in the second one. *)
From Verif Require Import Base Graph Automaton Trie PBFS.

Section FusionSelf.
  Context {A : Type} `{EqDec A}.

  (** The state of the visitor: the automaton, and map_q2_q1 (trie.py:53-62). *)
  Notation fstate := (aut A * dict (option nat) (option nat))%type.

  (** TrieDeterministicFusion.start_vertex, trie.py:64-68, with [g1 is g2]. Simplification: set_final is not called on BOTTOM. *)
  Definition self_start (s : fstate) (q01 q02 : option nat) : fstate * res unit :=
    let '(g, m) := s in
    let g' := match q01 with
              | Some q => if A_is_final_opt g q02 then A_set_final g q true else g
              | None => g
              end in
    ((g', dset m q02 q01), Ok tt).

  (** TrieDeterministicFusion.examine_edge, trie.py:70-95, with [g1 is g2]: is_final is read after the additions. *)
  Definition self_edge (s : fstate) (e1 e2 : medge) (a : A) : fstate * res unit :=
    let '(g, m) := s in
    let r2 := match e2 with Some (_, r2) => r2 | None => None end in
    let finish (g : aut A) m (r1 : nat) :=
      ((if A_is_final_opt g r2 then A_set_final g r1 true else g, m), Ok tt) in
    let create (q1 : nat) :=
      match A_add_vertex g with
      | (g', Raise e) => ((g', m), Raise e)
      | (g', Ok r1) =>
          let m' := dset m r2 (Some r1) in
          match A_add_edge g' q1 r1 a with
          | (g'', Raise e) => ((g'', m'), Raise e)
          | (g'', Ok _) => finish g'' m' r1
          end
      end in
    match e1 with
    | None =>
        match e2 with
        | None => (s, Raise AttributeError) (* g2.source(None) *)
        | Some (q2, _) =>
            match dget m (Some q2) with
            | None => (s, Raise KeyError)
            | Some None => (s, Raise AssertionError)
            | Some (Some q1) => create q1
            end
        end
    | Some (q1, None) => create q1
    | Some (_, Some r1) => finish g m r1
    end.

  (** The loop on the symbols, parallel_breadth_first_search.py:270-286, with [g1 is g2] and the arguments of trie_deterministic_fusion (trie.py:107-113; discover_vertex does nothing). *)
  Fixpoint self_symbols (q1 q2 : option nat) (syms : list A) (s : fstate) (stack : list qpair) (col : dict qpair color)
      : fstate * list qpair * dict qpair color * res unit :=
    match syms with
    | [] => (s, stack, col, Ok tt)
    | a :: syms' =>
        let r1 := odelta (fst s) q1 a in
        let r2 := odelta (fst s) q2 a in
        let e1 := get_edge (fst s) q1 a in
        let e2 := get_edge (fst s) q2 a in
        match self_edge s e1 e2 a with
        | (s1, Raise e) => (s1, stack, col, Raise e)
        | (s1, Ok _) =>
            if is_white (color_of col (r1, r2))
            then self_symbols q1 q2 syms' s1 (if fusion_push e1 e2 then stack ++ [(r1, r2)] else stack) (dset col (r1, r2) GRAY)
            else self_symbols q1 q2 syms' s1 stack col
        end
    end.

  (** The main loop, parallel_breadth_first_search.py:267-288, with [g1 is g2]; see [pbfs_loop]. *)
  Fixpoint self_loop (ord : set_order A) (fuel n : nat) (s : fstate) (stack : list qpair) (col : dict qpair color)
      : option (fstate * res unit) :=
    match fuel with
    | 0 => None
    | S fuel' =>
        match stack with
        | [] => Some (s, Ok tt)
        | (q1, q2) :: stack' =>
            match self_symbols q1 q2 (ord n (sunion (A_sigma (fst s) q1) (A_sigma (fst s) q2))) s stack' col with
            | (s', _, _, Raise e) => Some (s', Raise e)
            | (s', stack1, col1, Ok _) => self_loop ord fuel' (S n) s' stack1 (dset col1 (q1, q2) BLACK)
            end
        end
    end.

  (** Trie.insert(self) (trie.py:43-44): trie_deterministic_fusion(g, g), trie.py:98-113, and parallel_breadth_first_search.py:250-263. *)
  Definition T_insert_self (ord : set_order A) (fuel : nat) (g : aut A) : option (aut A * res unit) :=
    match self_start (g, []) (A_initial g) (A_initial g) with
    | ((g', _), Raise e) => Some (g', Raise e)
    | (s, Ok _) =>
        match self_loop ord fuel 0 s [(A_initial g, A_initial g)] [] with
        | None => None
        | Some ((g', _), r) => Some (g', r)
        end
    end.
End FusionSelf.
