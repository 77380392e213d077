(** Model of src/pybgl/heap.py, with the module heapq of the Python standard library (Lib/heapq.py, CPython 3.12) on which
    it is based. *)
From Verif Require Import Base.

(** ** heapq *)
Section Heapq.
  Context {E : Type}.
  (** the operator [<] of the items *)
  Variable lt : E -> E -> bool.

  (** [heap[i] = x] (heapq.py:214-219) *)
  Fixpoint upd (heap : list E) (i : nat) (x : E) : list E :=
    match heap, i with
    | [], _ => []
    | _ :: l, 0 => x :: l
    | y :: l, S i' => y :: upd l i' x
    end.

  (** The loop of _siftdown, heapq.py:211-218, and heapq.py:219. pos decreases and the loop stops at 0, so that [fuel >= pos] iterations are
      enough. An index out of the list (IndexError) does not occur; the list is then left as it is. *)
  Fixpoint siftdown_loop (fuel : nat) (heap : list E) (startpos pos : nat) (newitem : E) : list E :=
    match fuel with
    | 0 => upd heap pos newitem
    | S fuel' =>
        if startpos <? pos then
          let parentpos := (pos - 1) / 2 in
          match nth_error heap parentpos with
          | None => heap
          | Some parent => if lt newitem parent then siftdown_loop fuel' (upd heap pos parent) startpos parentpos newitem else upd heap pos newitem
          end
        else upd heap pos newitem
    end.
  (** _siftdown, heapq.py:207-219 *)
  Definition siftdown (heap : list E) (startpos pos : nat) : list E :=
    match nth_error heap pos with
    | None => heap
    | Some newitem => siftdown_loop pos heap startpos pos newitem
    end.
  (** The loop of _siftup, heapq.py:265-274; pos increases and the loop stops before the end of the list. *)
  Fixpoint siftup_loop (fuel : nat) (heap : list E) (pos : nat) : list E * nat :=
    match fuel with
    | 0 => (heap, pos)
    | S fuel' =>
        let childpos := 2 * pos + 1 in
        if childpos <? length heap then
          let rightpos := childpos + 1 in
          match nth_error heap childpos with
          | None => (heap, pos)
          | Some item_l =>
              match nth_error heap rightpos with
              | Some item_r =>
                  if negb (lt item_l item_r) then siftup_loop fuel' (upd heap pos item_r) rightpos
                  else siftup_loop fuel' (upd heap pos item_l) childpos
              | None => siftup_loop fuel' (upd heap pos item_l) childpos
              end
          end
        else (heap, pos)
    end.
  (** _siftup, heapq.py:260-278 *)
  Definition siftup (heap : list E) (pos : nat) : list E :=
    match nth_error heap pos with
    | None => heap
    | Some newitem => let '(heap, p) := siftup_loop (length heap) heap pos in siftdown (upd heap p newitem) pos p
    end.
  (** heappush, heapq.py:132-135 *)
  Definition heappush (heap : list E) (item : E) : list E := siftdown (heap ++ [item]) 0 (length heap).
  (** heappop, heapq.py:137-145 *)
  Definition heappop (heap : list E) : list E * res E :=
    match rev heap with
    | [] => ([], Raise IndexError)
    | lastelt :: r =>
        match rev r with
        | [] => ([], Ok lastelt)
        | returnitem :: l => (siftup (lastelt :: l) 0, Ok returnitem)
        end
    end.
  (** heapify, heapq.py:170-179 *)
  Definition heapify (x : list E) : list E := fold_left siftup (rev (seq 0 (length x / 2))) x.
  (** [sorted(l)]: a stable sort (heapq.py:463-485; called by heap.py:219-226). *)
  Fixpoint insort (x : E) (l : list E) : list E :=
    match l with
    | [] => [x]
    | y :: l' => if lt y x then y :: insort x l' else x :: l
    end.
  (** [sorted(l)], heapq.py:463-485; called by heap.py:219-226 *)
  Definition py_sorted (l : list E) : list E := fold_right insort [] l.
  (** heapq.nsmallest(len(l), l), heapq.py:463-485: it is sorted(l) *)
  Definition nsmallest_all (l : list E) : list E := py_sorted l.
End Heapq.

(** ** Comparable *)
Section Comparable.
  Context {X : Type}.
  (** the operators of Comparable, heap.py:35-105, on the wrapped objects *)
  Variable preorder : X -> X -> bool.
  (** __lt__, heap.py:35-45 *)
  Definition C_lt (a b : X) : bool := negb (preorder b a).
  (** __le__, heap.py:47-57 *)
  Definition C_le (a b : X) : bool := preorder a b.
  (** __eq__, heap.py:59-72 *)
  Definition C_eq (a b : X) : bool := preorder a b && preorder b a.
  (** __ne__, heap.py:74-84 *)
  Definition C_ne (a b : X) : bool := negb (C_eq a b).
  (** __gt__, heap.py:86-96 *)
  Definition C_gt (a b : X) : bool := negb (preorder a b).
  (** __ge__, heap.py:98-108 *)
  Definition C_ge (a b : X) : bool := preorder b a.
End Comparable.

(** ** Heap *)
(** The operators [<] and [==] of the keys returned by to_comparable (heap.py:150-185). *)
Record keys (K : Type) := mkKeys { key_lt : K -> K -> bool; key_eq : K -> K -> bool }.
Arguments mkKeys {K}. Arguments key_lt {K}. Arguments key_eq {K}.
(** The keys made by compare_to_key, heap.py:129-141 *)
Definition comparable {X} (preorder : X -> X -> bool) : keys X := mkKeys (C_lt preorder) (C_eq preorder).

Section Heap.
  Context {X K : Type} {EX : EqDec X}.
  Variable ks : keys K.
  (** The items of self._data: (self.to_comparable(element), index, element) (heap.py:174-177, 195-202). *)
  Definition item : Type := K * nat * X.
  (** [<] on tuples: the first components that are not equal decide. Simplification: the elements would be compared if the
      keys and the indices were equal, but two items never have the same index (heap.py:150-217 calls heapq on such tuples). *)
  Definition item_lt (a b : item) : bool :=
    let '(ka, ia, _) := a in let '(kb, ib, _) := b in
    if key_eq ks ka kb then ia <? ib else key_lt ks ka kb.
  (** self._data and self.index, heap.py:150-185 *)
  Record heap := mkHeap { hp_data : list item; hp_index : nat }.
  (** The function to_comparable is a parameter of the methods which call it, since it may read objects that change
      between the calls (dijkstra_shortest_paths.py:267-275). *)
  Variable to_comparable : X -> K.

  (** Heap.__init__, heap.py:150-185 *)
  Definition heap_init (elements : list X) : heap :=
    match elements with
    | [] => mkHeap [] 0
    | _ => let data := map (fun '(i, element) => (to_comparable element, i, element)) (combine (seq 0 (length elements)) elements) in
           mkHeap (heapify item_lt data) (length data)
    end.
  (** push, heap.py:187-202 *)
  Definition heap_push (h : heap) (element : X) : heap :=
    mkHeap (heappush item_lt (hp_data h) (to_comparable element, hp_index h, element)) (hp_index h + 1).
  (** decrease_key, heap.py:204-208. The list is modified while it is enumerated: position i is read when it is reached.
      The length does not change, so the enumeration makes len(self._data) steps. *)
  Fixpoint decrease_loop (n : nat) (i : nat) (data : list item) (element : X) : list item :=
    match n with
    | 0 => data
    | S n' =>
        match nth_error data i with
        | None => data
        | Some (_, index, x) =>
            if eqb element x then decrease_loop n' (S i) (heapify item_lt (upd data i (to_comparable element, index, element))) element
            else decrease_loop n' (S i) data element
        end
    end.
  (** decrease_key, heap.py:204-208 *)
  Definition heap_decrease_key (h : heap) (element : X) : heap :=
    mkHeap (decrease_loop (length (hp_data h)) 0 (hp_data h) element) (hp_index h).
  (** pop, heap.py:210-217 *)
  Definition heap_pop (h : heap) : heap * res X :=
    match heappop item_lt (hp_data h) with
    | (data, Ok (_, _, x)) => (mkHeap data (hp_index h), Ok x)
    | (data, Raise e) => (mkHeap data (hp_index h), Raise e)
    end.
  (** __iter__, heap.py:219-226 *)
  Definition heap_iter (h : heap) : list X := map snd (nsmallest_all item_lt (hp_data h)).
  (** __bool__, heap.py:246-255 and __len__, heap.py:257-266 *)
  Definition heap_bool (h : heap) : bool := negb (length (hp_data h) =? 0).
  (** __len__, heap.py:257-266 *)
  Definition heap_len (h : heap) : nat := length (hp_data h).
End Heap.
Arguments heap : clear implicits.
Arguments item : clear implicits.
