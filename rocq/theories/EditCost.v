(** Model of the calls of compute in src/pybgl/levenshtein_distance.py, lcs_distance.py and damerau_levenshtein_distance.py: the functions of
    EditDistance.v, with the list of the calls that are made. *)
From Verif Require Import Base EditDistance.

Section Calls.
  Context {A : Type} `{EqDec A}.
  (** a call compute(i, j), and whether its value was in self.memoize (levenshtein_distance.py:67-68, lcs_distance.py:66-67, damerau_levenshtein_distance.py:78-79) *)
  Definition call : Type := nat * nat * bool.
  (** self.memoize and the calls made so far, levenshtein_distance.py:49, 53-79 *)
  Definition mstate : Type := memo * list call.
  (** what follows a call of compute, levenshtein_distance.py:53-79 *)
  Definition cbind (m : option (nat * mstate)) (f : nat -> mstate -> option (nat * mstate)) : option (nat * mstate) :=
    match m with Some (d, s) => f d s | None => None end.
  (** [ret = self.memoize[(i, j)] = ...; return ret] (levenshtein_distance.py:67-79) *)
  Definition cremember (i j : nat) (m : option (nat * mstate)) : option (nat * mstate) :=
    cbind m (fun d s => Some (d, (dset (fst s) (i, j) d, snd s))).
  (** the beginning of compute, levenshtein_distance.py:67-68: the call is recorded *)
  Definition enter (i j : nat) (hit : bool) (s : mstate) : mstate := (fst s, snd s ++ [(i, j, hit)]).

  (** LevenshteinDistance.compute, levenshtein_distance.py:53-79. [fuel]: the number of nested calls for which there is room on the stack; None
      when there is none left (RecursionError). *)
  Fixpoint lev_calls (fuel : nat) (x y : list A) (i j : nat) (s : mstate) : option (nat * mstate) :=
    match fuel with
    | 0 => None
    | S fuel' =>
        match dget (fst s) (i, j) with
        | Some d => Some (d, enter i j true s)
        | None =>
            let s := enter i j false s in
            cremember i j
              (if negb (j <? length y) then Some (length x - i, s)
               else if negb (i <? length x) then Some (length y - j, s)
               else if same x y i j then lev_calls fuel' x y (i + 1) (j + 1) s
               else
                 cbind (lev_calls fuel' x y (i + 1) j s) (fun d1 s =>
                 cbind (lev_calls fuel' x y i (j + 1) s) (fun d2 s =>
                 cbind (lev_calls fuel' x y (i + 1) (j + 1) s) (fun d3 s =>
                 Some (1 + Nat.min (Nat.min d1 d2) d3, s)))))
        end
    end.
  (** LcsDistance.compute, lcs_distance.py:52-77 *)
  Fixpoint lcs_calls (fuel : nat) (x y : list A) (i j : nat) (s : mstate) : option (nat * mstate) :=
    match fuel with
    | 0 => None
    | S fuel' =>
        match dget (fst s) (i, j) with
        | Some d => Some (d, enter i j true s)
        | None =>
            let s := enter i j false s in
            cremember i j
              (if negb (j <? length y) then Some (length x - i, s)
               else if negb (i <? length x) then Some (length y - j, s)
               else if same x y i j then lcs_calls fuel' x y (i + 1) (j + 1) s
               else
                 cbind (lcs_calls fuel' x y (i + 1) j s) (fun d1 s =>
                 cbind (lcs_calls fuel' x y i (j + 1) s) (fun d2 s =>
                 Some (1 + Nat.min d1 d2, s))))
        end
    end.
  (** DamerauLevenshteinDistance.compute, damerau_levenshtein_distance.py:63-98 *)
  Fixpoint dam_calls (fuel : nat) (x y : list A) (i j : nat) (s : mstate) : option (nat * mstate) :=
    match fuel with
    | 0 => None
    | S fuel' =>
        match dget (fst s) (i, j) with
        | Some d => Some (d, enter i j true s)
        | None =>
            let s := enter i j false s in
            cremember i j
              (if negb (j <? length y) then Some (length x - i, s)
               else if negb (i <? length x) then Some (length y - j, s)
               else if same x y i j then dam_calls fuel' x y (i + 1) (j + 1) s
               else
                 cbind (dam_calls fuel' x y (i + 1) j s) (fun d1 s =>
                 cbind (dam_calls fuel' x y i (j + 1) s) (fun d2 s =>
                 cbind (dam_calls fuel' x y (i + 1) (j + 1) s) (fun d3 s =>
                 if (i + 1 <? length x) && (j + 1 <? length y) && same x y i (j + 1) && same x y (i + 1) j then
                   cbind (dam_calls fuel' x y (i + 2) (j + 2) s) (fun d4 s =>
                   Some (1 + Nat.min (Nat.min (Nat.min d1 d2) d3) d4, s))
                 else Some (1 + Nat.min (Nat.min d1 d2) d3, s)))))
        end
    end.

  (** damerau_levenshtein_distance_naive, damerau_levenshtein_distance.py:7-42, with the number of calls of this function (the first one included).
      [fuel]: the number of nested calls for which there is room. *)
  Fixpoint damerau_naive_calls (fuel : nat) (x y : list A) : option (nat * nat) :=
    match fuel with
    | 0 => None
    | S fuel' =>
        match x, y with
        | _, [] => Some (length x, 1)
        | [], _ => Some (length y, 1)
        | a :: x1, b :: y1 =>
            if eqb a b then match damerau_naive_calls fuel' x1 y1 with Some (d, c) => Some (d, 1 + c) | None => None end
            else match damerau_naive_calls fuel' x1 y, damerau_naive_calls fuel' x y1, damerau_naive_calls fuel' x1 y1 with
                 | Some (d1, c1), Some (d2, c2), Some (d3, c3) =>
                     match x1, y1 with
                     | a' :: x2, b' :: y2 =>
                         if eqb a b' && eqb a' b then
                           match damerau_naive_calls fuel' x2 y2 with
                           | Some (d4, c4) => Some (1 + Nat.min (Nat.min (Nat.min d1 d2) d3) d4, 1 + c1 + c2 + c3 + c4)
                           | None => None
                           end
                         else Some (1 + Nat.min (Nat.min d1 d2) d3, 1 + c1 + c2 + c3)
                     | _, _ => Some (1 + Nat.min (Nat.min d1 d2) d3, 1 + c1 + c2 + c3)
                     end
                 | _, _, _ => None
                 end
        end
    end.
End Calls.
