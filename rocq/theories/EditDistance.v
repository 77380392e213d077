(** Model of src/pybgl/levenshtein_distance.py, lcs_distance.py and damerau_levenshtein_distance.py. A word is a list over
    any type with decidable equality. *)
From Verif Require Import Base.

Section Distances.
  Context {A : Type} `{EqDec A}.

  (** self.memoize: the values already computed, by (i, j) (levenshtein_distance.py:49, lcs_distance.py:48, damerau_levenshtein_distance.py:59) *)
  Definition memo := dict (nat * nat) nat.
  (** a call of compute: its result and self.memoize after it, levenshtein_distance.py:53-79; None: out of fuel *)
  Definition memoized := option (nat * memo).
  (** what follows a call of compute, levenshtein_distance.py:53-79 *)
  Definition mbind (m : memoized) (f : nat -> memo -> memoized) : memoized := match m with Some (d, t) => f d t | None => None end.
  (** [ret = self.memoize[(i, j)] = ...; return ret] (levenshtein_distance.py:67-79) *)
  Definition remember (i j : nat) (m : memoized) : memoized := mbind m (fun d t => Some (d, dset t (i, j) d)).
  (** self.x[i] == self.y[j], for indices in range (levenshtein_distance.py:72) *)
  Definition same (x y : list A) (i j : nat) : bool :=
    match nth_error x i, nth_error y j with Some a, Some b => eqb a b | _, _ => false end.

  (** LevenshteinDistance.compute, levenshtein_distance.py:53-79. [fuel] bounds the depth of the recursion.
      Simplification: i and j do not exceed the lengths (the subtractions are natural). *)
  Fixpoint lev_compute (fuel : nat) (x y : list A) (i j : nat) (t : memo) : memoized :=
    match fuel with
    | 0 => None
    | S fuel' =>
        match dget t (i, j) with
        | Some d => Some (d, t)
        | None =>
            remember i j
              (if negb (j <? length y) then Some (length x - i, t)
               else if negb (i <? length x) then Some (length y - j, t)
               else if same x y i j then lev_compute fuel' x y (i + 1) (j + 1) t
               else
                 mbind (lev_compute fuel' x y (i + 1) j t) (fun d1 t =>
                 mbind (lev_compute fuel' x y i (j + 1) t) (fun d2 t =>
                 mbind (lev_compute fuel' x y (i + 1) (j + 1) t) (fun d3 t =>
                 Some (1 + Nat.min (Nat.min d1 d2) d3, t)))))
        end
    end.
  (** levenshtein_distance, levenshtein_distance.py:82-96 *)
  Definition levenshtein_distance (x y : list A) : option nat := option_map fst (lev_compute (S (length x + length y)) x y 0 0 []).
  (** levenshtein_distance_naive, levenshtein_distance.py:7-33: it calls levenshtein_distance *)
  Definition levenshtein_distance_naive (x y : list A) : option nat :=
    match x, y with
    | _, [] => Some (length x)
    | [], _ => Some (length y)
    | a :: x1, b :: y1 =>
        if eqb a b then levenshtein_distance x1 y1
        else match levenshtein_distance x1 y, levenshtein_distance x y1, levenshtein_distance x1 y1 with
             | Some d1, Some d2, Some d3 => Some (1 + Nat.min (Nat.min d1 d2) d3)
             | _, _, _ => None
             end
    end.

  (** LcsDistance.compute, lcs_distance.py:52-77 *)
  Fixpoint lcs_compute (fuel : nat) (x y : list A) (i j : nat) (t : memo) : memoized :=
    match fuel with
    | 0 => None
    | S fuel' =>
        match dget t (i, j) with
        | Some d => Some (d, t)
        | None =>
            remember i j
              (if negb (j <? length y) then Some (length x - i, t)
               else if negb (i <? length x) then Some (length y - j, t)
               else if same x y i j then lcs_compute fuel' x y (i + 1) (j + 1) t
               else
                 mbind (lcs_compute fuel' x y (i + 1) j t) (fun d1 t =>
                 mbind (lcs_compute fuel' x y i (j + 1) t) (fun d2 t =>
                 Some (1 + Nat.min d1 d2, t))))
        end
    end.
  (** lcs_distance, lcs_distance.py:80-94 *)
  Definition lcs_distance (x y : list A) : option nat := option_map fst (lcs_compute (S (length x + length y)) x y 0 0 []).
  (** lcs_distance_naive, lcs_distance.py:7-32: it calls lcs_distance *)
  Definition lcs_distance_naive (x y : list A) : option nat :=
    match x, y with
    | _, [] => Some (length x)
    | [], _ => Some (length y)
    | a :: x1, b :: y1 =>
        if eqb a b then lcs_distance x1 y1
        else match lcs_distance x1 y, lcs_distance x y1 with
             | Some d1, Some d2 => Some (1 + Nat.min d1 d2)
             | _, _ => None
             end
    end.

  (** DamerauLevenshteinDistance.compute, damerau_levenshtein_distance.py:63-98 *)
  Fixpoint dam_compute (fuel : nat) (x y : list A) (i j : nat) (t : memo) : memoized :=
    match fuel with
    | 0 => None
    | S fuel' =>
        match dget t (i, j) with
        | Some d => Some (d, t)
        | None =>
            remember i j
              (if negb (j <? length y) then Some (length x - i, t)
               else if negb (i <? length x) then Some (length y - j, t)
               else if same x y i j then dam_compute fuel' x y (i + 1) (j + 1) t
               else
                 mbind (dam_compute fuel' x y (i + 1) j t) (fun d1 t =>
                 mbind (dam_compute fuel' x y i (j + 1) t) (fun d2 t =>
                 mbind (dam_compute fuel' x y (i + 1) (j + 1) t) (fun d3 t =>
                 if (i + 1 <? length x) && (j + 1 <? length y) && same x y i (j + 1) && same x y (i + 1) j then
                   mbind (dam_compute fuel' x y (i + 2) (j + 2) t) (fun d4 t =>
                   Some (1 + Nat.min (Nat.min (Nat.min d1 d2) d3) d4, t))
                 else Some (1 + Nat.min (Nat.min d1 d2) d3, t)))))
        end
    end.
  (** damerau_levenshtein_distance, damerau_levenshtein_distance.py:101-115 *)
  Definition damerau_levenshtein_distance (x y : list A) : option nat := option_map fst (dam_compute (S (length x + length y)) x y 0 0 []).
  (** damerau_levenshtein_distance_naive, damerau_levenshtein_distance.py:7-42; [fuel] bounds the depth of the recursion *)
  Fixpoint damerau_naive (fuel : nat) (x y : list A) : option nat :=
    match fuel with
    | 0 => None
    | S fuel' =>
        match x, y with
        | _, [] => Some (length x)
        | [], _ => Some (length y)
        | a :: x1, b :: y1 =>
            if eqb a b then damerau_naive fuel' x1 y1
            else match damerau_naive fuel' x1 y, damerau_naive fuel' x y1, damerau_naive fuel' x1 y1 with
                 | Some d1, Some d2, Some d3 =>
                     match x1, y1 with
                     | a' :: x2, b' :: y2 =>
                         if eqb a b' && eqb a' b then
                           match damerau_naive fuel' x2 y2 with
                           | Some d4 => Some (1 + Nat.min (Nat.min (Nat.min d1 d2) d3) d4)
                           | None => None
                           end
                         else Some (1 + Nat.min (Nat.min d1 d2) d3)
                     | _, _ => Some (1 + Nat.min (Nat.min d1 d2) d3)
                     end
                 | _, _, _ => None
                 end
        end
    end.
  (** damerau_levenshtein_distance_naive, damerau_levenshtein_distance.py:7-42, with enough fuel *)
  Definition damerau_levenshtein_distance_naive (x y : list A) : option nat := damerau_naive (S (length x + length y)) x y.
End Distances.
