(** Edits of words. *)
From Verif Require Import Base SearchSpec.

Section Edit.
  Context {A : Type}.
  Implicit Types x y l r : list A.
  (** one insertion or deletion *)
  Inductive indel : list A -> list A -> Prop :=
  | ins l a r : indel (l ++ r) (l ++ a :: r)
  | del l a r : indel (l ++ a :: r) (l ++ r).
  (** one insertion, deletion or substitution *)
  Inductive edit : list A -> list A -> Prop :=
  | edit_indel x y : indel x y -> edit x y
  | subst l a b r : edit (l ++ a :: r) (l ++ b :: r).
  (** one insertion, deletion, substitution or exchange of two adjacent letters *)
  Inductive edit_or_swap : list A -> list A -> Prop :=
  | es_edit x y : edit x y -> edit_or_swap x y
  | swap l a b r : edit_or_swap (l ++ a :: b :: r) (l ++ b :: a :: r).
  (** [least R x y d]: d is the least number of steps of R from x to y *)
  Definition least (R : list A -> list A -> Prop) x y (d : nat) : Prop := walk R d x y /\ forall n, walk R n x y -> d <= n.

  (** The words are cut in blocks; the block of x is replaced with the block of y. Every letter is in one block, so that
      no letter is edited twice. *)
  Inductive blocks : nat -> list A -> list A -> Prop :=
  | bl_nil : blocks 0 [] []
  | bl_keep n a x y : blocks n x y -> blocks n (a :: x) (a :: y)
  | bl_subst n a b x y : blocks n x y -> blocks (S n) (a :: x) (b :: y)
  | bl_ins n b x y : blocks n x y -> blocks (S n) x (b :: y)
  | bl_del n a x y : blocks n x y -> blocks (S n) (a :: x) y
  | bl_swap n a b x y : blocks n x y -> blocks (S n) (a :: b :: x) (b :: a :: y).

  (** subsequences *)
  Inductive subsequence : list A -> list A -> Prop :=
  | ss_nil : subsequence [] []
  | ss_keep a x y : subsequence x y -> subsequence (a :: x) (a :: y)
  | ss_skip a x y : subsequence x y -> subsequence x (a :: y).
  Definition longest_common (x y : list A) (n : nat) : Prop :=
    (exists s, subsequence s x /\ subsequence s y /\ length s = n) /\ forall s, subsequence s x -> subsequence s y -> length s <= n.

  (** the distance axioms *)
  Definition separated (d : list A -> list A -> nat) : Prop := forall x y, d x y = 0 <-> x = y.
  Definition symmetric (d : list A -> list A -> nat) : Prop := forall x y, d x y = d y x.
  Definition triangular (d : list A -> list A -> nat) : Prop := forall x y z, d x z <= d x y + d y z.
End Edit.

(** The recursions computed without memoization, on words. *)
Section Recursion.
  Context {A : Type} `{EqDec A}.
  Fixpoint lev (x : list A) : list A -> nat :=
    fix lev_x (y : list A) : nat :=
      match x, y with
      | [], _ => length y
      | _, [] => length x
      | a :: x1, b :: y1 => if eqb a b then lev x1 y1 else S (Nat.min (Nat.min (lev x1 y) (lev_x y1)) (lev x1 y1))
      end.
  Fixpoint lcsd (x : list A) : list A -> nat :=
    fix lcsd_x (y : list A) : nat :=
      match x, y with
      | [], _ => length y
      | _, [] => length x
      | a :: x1, b :: y1 => if eqb a b then lcsd x1 y1 else S (Nat.min (lcsd x1 y) (lcsd_x y1))
      end.
  Fixpoint osa (x : list A) : list A -> nat :=
    fix osa_x (y : list A) : nat :=
      match x, y with
      | [], _ => length y
      | _, [] => length x
      | a :: x1, b :: y1 =>
          if eqb a b then osa x1 y1
          else
            let d := Nat.min (Nat.min (osa x1 y) (osa_x y1)) (osa x1 y1) in
            match x1, y1 with
            | a' :: x2, b' :: y2 => if eqb a b' && eqb a' b then S (Nat.min d (osa x2 y2)) else S d
            | _, _ => S d
            end
      end.
End Recursion.
