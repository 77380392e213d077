(** Model of the comparisons and of the hashing of EdgeDescriptor, src/pybgl/graph.py:38-126, on the Python objects that
    pybgl stores in the descriptors: None, integers, strings, tuples and sets of integers. (Simplified: a set stored in a
    descriptor is the value it has when the descriptor is used; other objects, such as floats, are left out.) *)
From Coq Require Import ZArith.
From Verif Require Import Base Str Graph Automaton Nfa.

(** The objects given to EdgeDescriptor.__init__, graph.py:39-55: None, an integer, a string, a tuple, a set of integers *)
Inductive value := VNone | VInt (z : Z) | VStr (s : str) | VTup (l : list value) | VSet (s : list Z).

(** [==] on the integers, used by graph.py:98-103 *)
#[global] Instance EqDec_Z : EqDec Z := Z.eq_dec.
(** s <= t on sets of integers, used by graph.py:98-103 and 117-127 *)
Definition subset (s t : list Z) : bool := forallb (fun x => mem x t) s.

(** [x == y]: objects of different types are different (used by graph.py:98-103) *)
Fixpoint py_eq (x y : value) : bool :=
  match x, y with
  | VNone, VNone => true
  | VInt a, VInt b => Z.eqb a b
  | VStr a, VStr b => eqb a b
  | VTup l, VTup l' =>
      (fix eqs (l l' : list value) : bool :=
         match l, l' with
         | [], [] => true
         | x :: l, y :: l' => py_eq x y && eqs l l'
         | _, _ => false
         end) l l'
  | VSet s, VSet t => subset s t && subset t s
  | _, _ => false
  end.

(** the order of the strings, by code points (used by graph.py:117-127) *)
Fixpoint str_lt (s t : str) : bool :=
  match s, t with
  | _, [] => false
  | [], _ :: _ => true
  | a :: s, b :: t => if N.eqb a b then str_lt s t else N.ltb a b
  end.

(** [x < y]: tuples are compared at their first different items, or by their lengths; sets by strict inclusion; the other
    comparisons raise TypeError (used by graph.py:117-127) *)
Fixpoint py_lt (x y : value) : res bool :=
  match x, y with
  | VInt a, VInt b => Ok (Z.ltb a b)
  | VStr a, VStr b => Ok (str_lt a b)
  | VTup l, VTup l' =>
      (fix lts (l l' : list value) : res bool :=
         match l, l' with
         | _, [] => Ok false
         | [], _ :: _ => Ok true
         | x :: l, y :: l' => if py_eq x y then lts l l' else py_lt x y
         end) l l'
  | VSet s, VSet t => Ok (subset s t && negb (subset t s))
  | _, _ => Raise TypeError
  end.

(** [hash(x)] raises TypeError on the sets and on the tuples which contain a set. (Simplified: the number is not modelled.) (used by graph.py:84) *)
Fixpoint py_hash (x : value) : res unit :=
  match x with
  | VSet _ => Raise TypeError
  | VTup l =>
      (fix hashes (l : list value) : res unit :=
         match l with [] => Ok tt | x :: l => rbind (py_hash x) (fun _ => hashes l) end) l
  | _ => Ok tt
  end.

(** EdgeDescriptor.__init__, graph.py:39-55 *)
Record descr := D { d_source : value; d_target : value; d_dist : value }.
(** the tuples of graph.py:84 and 117-127 *)
Definition d_tuple (e : descr) : value := VTup [d_source e; d_target e; d_dist e].
(** EdgeDescriptor.__hash__, graph.py:77-84 *)
Definition E_hash (e : descr) : res unit := py_hash (d_tuple e).
(** EdgeDescriptor.__eq__, graph.py:86-103; [None] is the object None *)
Definition E_eq (self : descr) (e : option descr) : bool :=
  match e with
  | None => false
  | Some e => py_eq (d_source self) (d_source e) && py_eq (d_target self) (d_target e) && py_eq (d_dist self) (d_dist e)
  end.
(** EdgeDescriptor.__lt__, graph.py:105-127 *)
Definition E_lt (self e : descr) : res bool := py_lt (d_tuple self) (d_tuple e).

(** [sorted(l)]: a stable sort by [<]. (Simplified: list.sort compares other pairs than this insertion sort; the model is
    used on lists whose elements can all be compared.) (used on the edges by the callers of EdgeDescriptor.__lt__, graph.py:105-127) *)
Fixpoint E_insort (x : descr) (l : list descr) : res (list descr) :=
  match l with
  | [] => Ok [x]
  | y :: l' => rbind (E_lt y x) (fun b => if b then rbind (E_insort x l') (fun l' => Ok (y :: l')) else Ok (x :: l))
  end.
(** [sorted(l)], see [E_insort]; it calls graph.py:105-127 *)
Definition E_sorted (l : list descr) : res (list descr) :=
  fold_right (fun x r => rbind r (E_insort x)) (Ok []) l.

(** [{e for e in l}]: every descriptor is hashed (graph.py:365-369) *)
Fixpoint py_set_add (acc l : list descr) : res (list descr) :=
  match l with
  | [] => Ok acc
  | e :: l => rbind (E_hash e) (fun _ => py_set_add (if existsb (fun x => E_eq x (Some e)) acc then acc else acc ++ [e]) l)
  end.
(** [set(l)], graph.py:365-369 *)
Definition py_set (l : list descr) : res (list descr) := py_set_add [] l.

(** an integer stored in a descriptor, graph.py:39-55 *)
Definition vint (n : nat) : value := VInt (Z.of_nat n).
(** the descriptors of DirectedGraph, UndirectedGraph and IncidenceGraph: graph.py:241, 285, 347, 555, 597 *)
Definition G_descr (e : edge nat) : descr := D (vint (source e)) (vint (target e)) (vint (distinguisher e)).
Section Labelled.
  Context {A : Type}.
  (** the symbols are Python objects *)
  Variable sym : A -> value.
  (** those of Automaton, IncidenceAutomaton, NodeAutomaton: automaton.py:95, 150, 208; node_automaton.py:94, 147, 206 *)
  Definition A_descr (e : edge A) : descr := D (vint (source e)) (vint (target e)) (sym (distinguisher e)).
  (** those that Nfa.out_edges and Nfa.edges return, nfa.py:193, 207: the set of the numbers of the parallel edges *)
  Definition N_descr (e : edge (A * list nat)) : descr :=
    D (vint (source e)) (vint (target e)) (VTup [sym (fst (distinguisher e)); VSet (map Z.of_nat (snd (distinguisher e)))]).
  (** the one that Nfa.add_edge returns, nfa.py:163: one number *)
  Definition N_new_descr (e : edge (A * nat)) : descr :=
    D (vint (source e)) (vint (target e)) (VTup [sym (fst (distinguisher e)); vint (snd (distinguisher e))]).

  (** Graph.edge, graph.py:353-373, called on an Nfa *)
  Context `{EqDec A}.
  (** Graph.edge, graph.py:353-373, on an Nfa *)
  Definition N_edge (g : nfa A) (u v : nat) : res (option descr * bool) :=
    rbind (py_set (map N_descr (filter (fun e => target e =? v) (N_out_edges g u)))) (fun s =>
    Ok (match s with [e] => (Some e, true) | _ => (None, false) end)).
End Labelled.
