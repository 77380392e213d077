(** Specifications for the small modules. *)
From Coq Require Import QArith Qabs.
From Verif Require Import Base Misc.

Section PMap.
  Context {K V : Type} `{EqDec K}.
  (** Specification: the last value written under [k] in a history (latest first), or the default. *)
  Fixpoint last_write (default : V) (hist : list (K * V)) (k : K) : V :=
    match hist with
    | [] => default
    | (k', v) :: h => if eqb k k' then v else last_write default h k
    end.
  Fixpoint reads (default : V) (hist : list (K * V)) (ops : list (pm_op K V)) : list V :=
    match ops with
    | [] => []
    | PmGet k :: ops' => last_write default hist k :: reads default hist ops'
    | PmSet k v :: ops' => reads default ((k, v) :: hist) ops'
    end.
End PMap.

(** Equality of colors in exact arithmetic. *)
Local Open Scope Q_scope.
Definition color_eq (c d : Q * Q * Q) : Prop :=
  fst (fst c) == fst (fst d) /\ snd (fst c) == snd (fst d) /\ snd c == snd d.

(** What a color is, whatever its coordinates: its hue, its largest RGB component and its chroma (the
    difference between the largest and the smallest component), with the textbook formulas. *)
Definition hsv_max (s v : Q) : Q := v.
Definition hsv_chroma (s v : Q) : Q := v * s.
Definition hsl_chroma (s l : Q) : Q := (1 - Qabs (2 * l - 1)) * s.
Definition hsl_max (s l : Q) : Q := l + hsl_chroma s l / 2.
(** the HSV color (h, s, v) and the HSL color (h', s', l) are the same one *)
Definition same_color (hsv hsl : Q * Q * Q) : Prop :=
  let '(h, s, v) := hsv in let '(h', s', l) := hsl in
  h == h' /\ hsv_max s v == hsl_max s' l /\ hsv_chroma s v == hsl_chroma s' l.
