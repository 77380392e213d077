(** Common vocabulary of the model: exceptions as values, Python dictionaries and sets.

    - a Python [dict] is an association list kept in insertion order, with at most one entry
      per key ([dset] overwrites in place an existing key, like CPython >= 3.7);
    - a Python [set] is a duplicate-free list. *)
From Coq Require Export List Arith Bool Lia Permutation.
Export ListNotations.

(** Decidable equality: [==] on keys (no counterpart in /repo: the semantics of Python, e.g. graph.py:98-103). *)
Class EqDec (A : Type) := eq_dec : forall x y : A, {x = y} + {x <> y}.
(** [==] on vertex descriptors, e.g. graph.py:189. *)
#[global] Instance EqDec_nat : EqDec nat := Nat.eq_dec.
(** [==] on Booleans, e.g. deterministic_inclusion.py:46. *)
#[global] Instance EqDec_bool : EqDec bool := Bool.bool_dec.
(** [==] on states and None, e.g. automaton.py:251. *)
#[global] Instance EqDec_option {A} `{EqDec A} : EqDec (option A).
Proof. intros x y. unfold EqDec in *. decide equality. Defined.
(** [==] on tuples, e.g. product_mixin.py:57. *)
#[global] Instance EqDec_prod {A B} `{EqDec A} `{EqDec B} : EqDec (A * B).
Proof. intros x y. unfold EqDec in *. decide equality. Defined.
(** [==] on lists, which stand for the strings and the words, e.g. graphviz_impl.py:223. *)
#[global] Instance EqDec_list {A} `{EqDec A} : EqDec (list A).
Proof. intros x y. unfold EqDec in *. decide equality. Defined.

(** [x == y], e.g. graph.py:98-103. *)
Definition eqb {A} `{EqDec A} (x y : A) : bool := if eq_dec x y then true else false.

(** [x in l], e.g. graph.py:255. *)
Definition mem {A} `{EqDec A} (x : A) (l : list A) : bool := existsb (eqb x) l.

(** Python exceptions raised by the modelled code (e.g. property_map.py:113, revuz_minimize.py:155-163). *)
Inductive exn :=
  KeyError | AssertionError | TypeError | ValueError | RuntimeError | AttributeError | IndexError.

(** The end of a call: a value, or an exception (the semantics of Python, e.g. property_map.py:99-113). *)
Inductive res (A : Type) := Ok (a : A) | Raise (e : exn).
Arguments Ok {A} a.
Arguments Raise {A} e.
(** What follows a call is not run if it raises (the semantics of Python, e.g. topological_sort.py:53-59). *)
Definition rbind {X Y} (o : res X) (k : X -> res Y) : res Y :=
  match o with Ok x => k x | Raise e => Raise e end.

(** [for x in l: f(x)] where [f] mutates a state and may raise: the loop stops at the first
    exception and keeps the state reached (the semantics of Python, e.g. graph.py:188-193). *)
Fixpoint foreach {S A} (f : S -> A -> S * res unit) (s : S) (l : list A) : S * res unit :=
  match l with
  | [] => (s, Ok tt)
  | x :: l' =>
      match f s x with
      | (s', Ok _) => foreach f s' l'
      | (s', Raise e) => (s', Raise e)
      end
  end.

(** ** Dictionaries *)
Notation dict K V := (list (K * V)%type).

Section Dict.
  Context {K V : Type} `{EqDec K}.

  (** [d.get(k)] (dict.get, e.g. graph.py:286) *)
  Fixpoint dget (d : dict K V) (k : K) : option V :=
    match d with
    | [] => None
    | (k', v) :: d' => if eqb k k' then Some v else dget d' k
    end.

  (** [d[k] = v] (dict.__setitem__, e.g. graph.py:164) *)
  Fixpoint dset (d : dict K V) (k : K) (v : V) : dict K V :=
    match d with
    | [] => [(k, v)]
    | (k', v') :: d' => if eqb k k' then (k', v) :: d' else (k', v') :: dset d' k v
    end.

  (** [del d[k]] (on an existing key) (dict.__delitem__, e.g. graph.py:197) *)
  Fixpoint ddel (d : dict K V) (k : K) : dict K V :=
    match d with
    | [] => []
    | (k', v') :: d' => if eqb k k' then d' else (k', v') :: ddel d' k
    end.

  (** [d.keys()], e.g. graph.py:216 *)
  Definition dkeys (d : dict K V) : list K := map fst d.
  (** [k in d], e.g. graph.py:233 *)
  Definition dmem (d : dict K V) (k : K) : bool :=
    match dget d k with Some _ => true | None => false end.
End Dict.

(** ** Sets *)
Section PySet.
  Context {A : Type} `{EqDec A}.
  (** [s.add(x)] (set.add, e.g. graph.py:240) *)
  Definition sadd (x : A) (s : list A) : list A := if mem x s then s else s ++ [x].
  (** [s.remove(x)] / [s.discard(x)] (e.g. graph.py:256, nfa.py:241) *)
  Definition srem (x : A) (s : list A) : list A := filter (fun y => negb (eqb x y)) s.
  (** [s | t], [s & t], [s - t] (e.g. nfa.py:73) *)
  Definition sunion (s t : list A) : list A := fold_left (fun acc x => sadd x acc) t s.
  (** [s & t], e.g. hopcroft_minimize.py:51. *)
  Definition sinter (s t : list A) : list A := filter (fun x => mem x t) s.
  (** [s - t], e.g. dijkstra_shortest_paths.py:331 *)
  Definition sdiff (s t : list A) : list A := filter (fun x => negb (mem x t)) s.
  (** [set(l)] (e.g. nfa.py:87) *)
  Definition sof (l : list A) : list A := sunion [] l.
End PySet.

(** An iteration-order oracle: what iterating a Python [set] may return at step [n] (no counterpart in /repo: the semantics of Python, e.g. moore_determination.py:56). *)
Definition set_order (A : Type) := nat -> list A -> list A.
(** The oracle lists the elements of the set, each one once (no counterpart in /repo: e.g. moore_determination.py:56, see [set_order]). *)
Definition valid_order {A} (ord : set_order A) : Prop :=
  forall n l, Permutation (ord n l) l.
