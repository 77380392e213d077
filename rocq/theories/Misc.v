(** Models of small modules: property_map.py, aggregated_visitor.py, algebra.py, color.py. *)
From Coq Require Import ZArith QArith Qminmax.
From Verif Require Import Base.

(** ** property_map.py *)
Section PMap.
  Context {K V : Type} `{EqDec K}.

  (** AssocPropertyMap over a defaultdict whose factory returns [default]:
      property_map.py:249-273. *)
  Record assoc_pmap := Assoc { pm_default : V; pm_dict : dict K V }.
  (** make_assoc_property_map(defaultdict(...)), property_map.py:256-265, 276-298. *)
  Definition pm_new (default : V) : assoc_pmap := Assoc default [].
  (** [pmap[k]], property_map.py:267-269: reading a missing key of a defaultdict stores the default. *)
  Definition pm_get (p : assoc_pmap) (k : K) : assoc_pmap * V :=
    match dget (pm_dict p) k with
    | Some v => (p, v)
    | None => (Assoc (pm_default p) (dset (pm_dict p) k (pm_default p)), pm_default p)
    end.
  (** [pmap[k] = v], property_map.py:271-273. *)
  Definition pm_set (p : assoc_pmap) (k : K) (v : V) : assoc_pmap :=
    Assoc (pm_default p) (dset (pm_dict p) k v).

  (** The calls of property_map.py:267-273. *)
  Inductive pm_op := PmGet (k : K) | PmSet (k : K) (v : V).
  (** A sequence of these calls (no counterpart in /repo: the callers of property_map.py:267-273). *)
  Fixpoint pm_run (p : assoc_pmap) (ops : list pm_op) : assoc_pmap * list V :=
    match ops with
    | [] => (p, [])
    | PmGet k :: ops' =>
        let '(p1, v) := pm_get p k in
        let '(p2, vs) := pm_run p1 ops' in (p2, v :: vs)
    | PmSet k v :: ops' => pm_run (pm_set p k v) ops'
    end.

  (** Read-only maps, property_map.py:99-113, 116-207: function, identity, constant;
      writing raises RuntimeError. *)
  Inductive ro_pmap := FuncPM (f : K -> V) | ConstPM (v : V).
  (** __getitem__, property_map.py:134-136, 171-173, 205-207. *)
  Definition ro_get (p : ro_pmap) (k : K) : V := match p with FuncPM f => f k | ConstPM v => v end.
  (** ReadPropertyMap.__setitem__, property_map.py:99-113. *)
  Definition ro_set (p : ro_pmap) (k : K) (v : V) : ro_pmap * res unit := (p, Raise RuntimeError).
End PMap.
Arguments pm_op : clear implicits.
Arguments assoc_pmap : clear implicits.
Arguments ro_pmap : clear implicits.

(** ** aggregated_visitor.py *)
Section Agg.
  Context {Vis Ev : Type}.
  (** A visitor is an identity [Vis]; a call of method [ev] on it is recorded as [(vis, ev)].
      AggregatedVisitor.__getattr__, aggregated_visitor.py:21-33: the wrapper loops over the list. *)
  Definition agg_call (visitors : list Vis) (ev : Ev) : list (Vis * Ev) :=
    map (fun v => (v, ev)) visitors.
  (** Successive calls, aggregated_visitor.py:21-33. *)
  Definition agg_calls (visitors : list Vis) (evs : list Ev) : list (Vis * Ev) :=
    flat_map (agg_call visitors) evs.
  (** AggregatedVisitor.keys, aggregated_visitor.py:48-59; [key_of] is type_to_key, 35-46, the name of the class. *)
  Definition agg_keys (key_of : Vis -> nat) (visitors : list Vis) : list nat := sof (map key_of visitors).
  (** AggregatedVisitor.get, aggregated_visitor.py:61-85 (the message printed on failure is not
      modelled). *)
  Fixpoint agg_get (key_of : Vis -> nat) (visitors : list Vis) (key : nat) : option Vis :=
    match visitors with
    | [] => None
    | v :: vs => if eqb (key_of v) key then Some v else agg_get key_of vs key
    end.
End Agg.

(** ** algebra.py: numbers are modelled by exact integers. *)
Local Open Scope Z_scope.
(** ClosedOperator.__call__, algebra.py:101-117. *)
Definition closed_op (absorbing : Z) (impl : Z -> Z -> Z) (x y : Z) : Z :=
  if (x =? absorbing) || (y =? absorbing) then absorbing else impl x y.
(** ClosedPlus 120-146, ClosedTime 149-175, ClosedMax 178-204, ClosedMin 207-233. *)
Definition closed_plus (absorbing : Z) := closed_op absorbing Z.add.
(** ClosedTime, algebra.py:149-175. *)
Definition closed_time (absorbing : Z) := closed_op absorbing Z.mul.
(** ClosedMax, algebra.py:178-204. *)
Definition closed_max (absorbing : Z) := closed_op absorbing Z.max.
(** ClosedMin, algebra.py:207-233. *)
Definition closed_min (absorbing : Z) := closed_op absorbing Z.min.
(** INFINITY = sys.maxsize, algebra.py:9 (64-bit CPython). *)
Definition INFINITY : Z := 9223372036854775807.
(** Less, GreaterThan: algebra.py:31-66. *)
Definition less (x y : Z) : bool := x <? y.
(** GreaterThan, algebra.py:50-66. *)
Definition greater_than (x y : Z) : bool := x >? y.
Local Close Scope Z_scope.

(** ** color.py: floats are modelled by exact rationals. *)
Local Open Scope Q_scope.
(** hsv_to_hsl, color.py:15-34. *)
Definition hsv_to_hsl (hue saturation value : Q) : Q * Q * Q :=
  let lightness := value * (1 - saturation / 2) in
  let saturation' :=
    if Qeq_bool lightness 0 || Qeq_bool lightness 1 then 0
    else (value - lightness) / Qmin lightness (1 - lightness) in
  (hue, saturation', lightness).
(** hsl_to_hsv, color.py:37-56. *)
Definition hsl_to_hsv (hue saturation lightness : Q) : Q * Q * Q :=
  let value := lightness + saturation * Qmin lightness (1 - lightness) in
  let saturation' := if Qeq_bool value 0 then 0 else 2 * (1 - lightness / value) in
  (hue, saturation', value).
(** normalize_color_tuple, color.py:59-71. *)
Definition normalize_color_tuple (hue saturation x : Q) : Q * Q * Q :=
  (hue / 360, saturation / 100, x / 100).
