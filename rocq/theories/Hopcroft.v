(** Model of src/pybgl/hopcroft_minimize.py on the class IncidenceAutomaton. A frozenset of states is the list of its elements in the order of the vertices of g: every frozenset
    that the code compares or stores is cut from the vertices by the operators & and -, so that equal frozensets are equal lists. *)
From Verif Require Import Base Graph Automaton.

Section Hopcroft.
  Context {A : Type} {EA : EqDec A}.
  Notation block := (list nat).
  (** the frozenset in hopcroft_minimize.py:43-47 *)
  Definition preds (g : iaut A) (a : A) (r : nat) : list nat := sof (map source (filter (fun e => eqb (distinguisher e) a) (IA_in_edges g r))).
  (** x, hopcroft_minimize.py:26-27, 42-48: functools.reduce raises TypeError on an empty iterable *)
  Definition union_preds (g : iaut A) (a : A) (current : list nat) : res (list nat) :=
    match current with
    | [] => Raise TypeError
    | r :: rs => Ok (fold_left (fun u r => sunion u (preds g a r)) rs (preds g a r))
    end.
  (** the body of the loop on y, hopcroft_minimize.py:50-60. The state is (new_aggregated_states, waiting_states). *)
  Definition split_group (x : list nat) (st : list block * list block) (y : block) : (list block * list block) * res unit :=
    let '(new, waiting) := st in
    let xy := sinter y x in
    let yx := sdiff y x in
    if (0 <? length xy) && (0 <? length yx) then
      if mem y new then
        (sunion (srem y new) [xy; yx],
         if mem y waiting then sunion (srem y waiting) [xy; yx]
         else if length xy <=? length yx then sadd xy waiting
         else sadd yx waiting, Ok tt)
      else (st, Raise KeyError)
    else (st, Ok tt).
  (** the loop on the alphabet, hopcroft_minimize.py:41-61. [ord]: the order of iteration of aggregated_states *)
  Fixpoint letters (g : iaut A) (ord : set_order block) (current : block) (l : list A) (aggregated waiting : list block) : res (list block * list block) :=
    match l with
    | [] => Ok (aggregated, waiting)
    | a :: l' =>
        match union_preds g a current with
        | Raise e => Raise e
        | Ok x =>
            match foreach (split_group x) (aggregated, waiting) (ord (length l') aggregated) with
            | (_, Raise e) => Raise e
            | ((aggregated', waiting'), Ok _) => letters g ord current l' aggregated' waiting'
            end
        end
    end.
  (** the main loop, hopcroft_minimize.py:39-62. [ord_w]: set.pop takes the first element of an arbitrary order *)
  Fixpoint hopcroft_loop (fuel : nat) (g : iaut A) (ord_w : set_order block) (ord_p : nat -> set_order block) (ord_a : set_order A) (aggregated waiting : list block) : option (res (list block)) :=
    match waiting with
    | [] => Some (Ok aggregated)
    | _ =>
        match fuel with
        | 0 => None
        | S fuel' =>
            match ord_w fuel' waiting with
            | [] => Some (Raise KeyError)
            | current :: _ =>
                match letters g (ord_p fuel') current (ord_a fuel' (A_alphabet (ia_base g))) aggregated (srem current waiting) with
                | Raise e => Some (Raise e)
                | Ok (aggregated', waiting') => hopcroft_loop fuel' g ord_w ord_p ord_a aggregated' waiting'
                end
            end
        end
    end.
  (** hopcroft_agglomerate_states, hopcroft_minimize.py:13-62 *)
  Definition hopcroft_agglomerate_states (fuel : nat) (g : iaut A) ord_w ord_p ord_a : option (res (list block)) :=
    let final_states := filter (A_is_final (ia_base g)) (IA_vertices g) in
    let groups := sunion [] [final_states; sdiff (IA_vertices g) final_states] in
    hopcroft_loop fuel g ord_w ord_p ord_a groups groups.

  (** hopcroft_minimize.py:80-85: the position of the first group satisfying p *)
  Fixpoint find_idx (p : block -> bool) (l : list block) : option nat :=
    match l with [] => None | x :: l' => if p x then Some 0 else option_map S (find_idx p l') end.
  (** hopcroft_minimize.py:87-91: the elements 0 and i are exchanged *)
  Definition swap0 (l : list block) (i : nat) : list block :=
    match l, nth_error l i with
    | x :: l', Some y => match i with 0 => l | S i' => y :: firstn i' l' ++ x :: skipn i l' end
    | _, _ => l
    end.
  (** map_set_idx[qs], hopcroft_minimize.py:95-98 *)
  Definition set_idx (l : list block) (qs : block) : option nat := find_idx (eqb qs) l.
  (** hopcroft_minimize.py:119-122: the first group containing r, or the last group *)
  Fixpoint group_of (l : list block) (r : nat) : option block :=
    match l with [] => None | [x] => Some x | x :: l' => if mem r x then Some x else group_of l' r end.
  (** The constructor IncidenceAutomaton(n, 0, pmap_vfinal), automaton.py:32-55 *)
  Definition IA_make (n : nat) (final : nat -> bool) : iaut A :=
    let b := ia_base (IA_init n) in
    mkIAut (mkAut (au_last b) (au_adj b) (Some 0) final) (ia_in (IA_init n)).
  (** hopcroft_minimize.py:117-123, for the edge e leaving a state of qs *)
  Definition add_new_edge (l : list block) (g : iaut A) (x : block * edge A) : iaut A * res unit :=
    let '(qs, e) := x in
    match group_of l (target e) with
    | None => (g, Raise TypeError)
    | Some rs =>
        match set_idx l qs, set_idx l rs with
        | Some i, Some j =>
            match IA_add_edge g i j (distinguisher e) with
            | (g', Raise ex) => (g', Raise ex)
            | (g', Ok _) => (g', Ok tt)
            end
        | _, _ => (g, Raise KeyError)
        end
    end.
  (** hopcroft_minimize.py:65-124. [ord_l]: the order of the elements of aggregated_states in list(); [ord_q]: the order of iteration of qs. The three nested loops of lines 114-123 are flattened. *)
  Definition hopcroft_minimize (fuel : nat) (g : iaut A) ord_w ord_p ord_a (ord_l : set_order block) (ord_q : block -> list nat) : option (iaut A * res unit) :=
    match IA_vertices g with
    | [] => Some (g, Ok tt)
    | _ =>
        match hopcroft_agglomerate_states fuel g ord_w ord_p ord_a with
        | None => None
        | Some (Raise e) => Some (g, Raise e)
        | Some (Ok aggregated) =>
            let l := ord_l 0 aggregated in
            match find_idx (existsb (A_is_initial (ia_base g))) l with
            | None => Some (g, Raise AssertionError)
            | Some q0 =>
                let l := swap0 l q0 in
                let final i := match nth_error l i with Some qs => existsb (A_is_final (ia_base g)) qs | None => false end in
                let edges := flat_map (fun qs => flat_map (fun q => map (pair qs) (IA_out_edges g q)) (ord_q qs)) l in
                Some (foreach (add_new_edge l) (IA_make (length l) final) edges)
            end
        end
    end.
End Hopcroft.
