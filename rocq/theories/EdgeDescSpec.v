(** Equality and order of the Python objects, and the objects that cannot be compared. *)
From Coq Require Import ZArith.
From Verif Require Import Base Str EdgeDesc.

(** [x == y] *)
Inductive same : value -> value -> Prop :=
| same_none : same VNone VNone
| same_int z : same (VInt z) (VInt z)
| same_str s : same (VStr s) (VStr s)
| same_tup l l' : Forall2 same l l' -> same (VTup l) (VTup l')
| same_set s t : (forall x, In x s <-> In x t) -> same (VSet s) (VSet t).

(** the order of a dictionary *)
Definition before (s t : str) : Prop :=
  (exists c u, t = s ++ c :: u) \/ (exists p a b s' t', s = p ++ a :: s' /\ t = p ++ b :: t' /\ (a < b)%N).

(** [x < y] *)
Inductive less : value -> value -> Prop :=
| less_int a b : (a < b)%Z -> less (VInt a) (VInt b)
| less_str s t : before s t -> less (VStr s) (VStr t)
| less_prefix l p c s : Forall2 same l p -> less (VTup l) (VTup (p ++ c :: s))
| less_item p p' x y s s' : Forall2 same p p' -> less x y -> less (VTup (p ++ x :: s)) (VTup (p' ++ y :: s'))
| less_set s t : incl s t -> ~ incl t s -> less (VSet s) (VSet t).

Definition kind (x : value) : nat := match x with VNone => 0 | VInt _ => 1 | VStr _ => 2 | VTup _ => 3 | VSet _ => 4 end.
(** the comparisons that have no result: objects of different kinds, None, and tuples whose first different items have no
    order *)
Inductive clash : value -> value -> Prop :=
| clash_kind x y : kind x <> kind y -> clash x y
| clash_none : clash VNone VNone
| clash_item p p' x y s s' : Forall2 same p p' -> ~ same x y -> clash x y -> clash (VTup (p ++ x :: s)) (VTup (p' ++ y :: s')).

(** the objects with a set inside *)
Inductive holds_set : value -> Prop :=
| hs_set s : holds_set (VSet s)
| hs_tup l x : In x l -> holds_set x -> holds_set (VTup l).

(** homogeneous objects: integers, strings, tuples of these *)
Inductive ty := TInt | TStr | TTup (l : list ty).
Inductive has_type : ty -> value -> Prop :=
| ht_int z : has_type TInt (VInt z)
| ht_str s : has_type TStr (VStr s)
| ht_tup ts l : Forall2 has_type ts l -> has_type (TTup ts) (VTup l).
(** descriptors whose vertices are integers and whose distinguishers have type [t] *)
Definition typed (t : ty) (e : descr) : Prop := has_type TInt (d_source e) /\ has_type TInt (d_target e) /\ has_type t (d_dist e).

(** first the source, then the target, then the distinguisher *)
Definition e_less (e e' : descr) : Prop :=
  less (d_source e) (d_source e') \/
  same (d_source e) (d_source e') /\ (less (d_target e) (d_target e') \/ same (d_target e) (d_target e') /\ less (d_dist e) (d_dist e')).
Definition e_same (e e' : descr) : Prop := same (d_source e) (d_source e') /\ same (d_target e) (d_target e') /\ same (d_dist e) (d_dist e').
(** the first different field has no order *)
Definition e_clash (e e' : descr) : Prop :=
  ~ same (d_source e) (d_source e') /\ clash (d_source e) (d_source e') \/
  same (d_source e) (d_source e') /\
    (~ same (d_target e) (d_target e') /\ clash (d_target e) (d_target e') \/
     same (d_target e) (d_target e') /\ ~ same (d_dist e) (d_dist e') /\ clash (d_dist e) (d_dist e')).
