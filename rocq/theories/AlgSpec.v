(** Arithmetic expressions: concrete syntax and value. *)
From Coq Require Import String.
From Verif Require Import Str ShuntingYard SYSpec Alg.
Open Scope string_scope.
Open Scope list_scope.

Inductive aop := OAdd | OSub | OMul | ODiv | OPow.
(** [Num s]: a number written [s] *)
Inductive aexp := Num (s : str) | BinA (l : aexp) (o : aop) (r : aexp) | Neg (x : aexp) | Pos (x : aexp) | ParA (x : aexp).

Definition op_text (o : aop) : str :=
  match o with OAdd => lit "+" | OSub => lit "-" | OMul => lit "*" | ODiv => lit "/" | OPow => lit "^" end.
(** how the expression is written *)
Fixpoint text (e : aexp) : str :=
  match e with
  | Num s => s | BinA l o r => text l ++ op_text o ++ text r | Neg x => lit "-" ++ text x | Pos x => lit "+" ++ text x
  | ParA x => lit "(" ++ text x ++ lit ")"
  end.

(** The usual reading: ^ binds tightest and to the right, then * and /, then + and -, to the left; a sign binds as *
    and / do, on the operand on its right. A sign is not allowed just after ^, * or / in the table of this module
    without parentheses for ^; it is after *, /, + and -.
    [lvl e]: 0 atom, 1 power, 2 sign, 3 product, 4 sum. *)
Definition lvl (e : aexp) : nat :=
  match e with
  | Num _ | ParA _ => 0 | BinA _ OPow _ => 1 | Neg _ | Pos _ => 2 | BinA _ OMul _ | BinA _ ODiv _ => 3 | BinA _ OAdd _ | BinA _ OSub _ => 4
  end.
Fixpoint grammar (e : aexp) : Prop :=
  match e with
  | Num s => s <> [] /\ (forall c, In c s -> isspace c = false /\ ~ In c (lit "^*/+-()u"))
  | ParA x => grammar x
  | Neg x | Pos x => grammar x /\ lvl x <= 2
  | BinA l OPow r => grammar l /\ grammar r /\ lvl l = 0 /\ lvl r <= 1
  | BinA l OMul r | BinA l ODiv r => grammar l /\ grammar r /\ lvl l <= 3 /\ lvl r <= 2
  | BinA l OAdd r | BinA l OSub r => grammar l /\ grammar r /\ lvl r <= 3
  end.
Fixpoint no_plus_sign (e : aexp) : Prop :=
  match e with
  | Num _ => True | ParA x | Neg x => no_plus_sign x | Pos _ => False | BinA l _ r => no_plus_sign l /\ no_plus_sign r
  end.

Section Value.
  Context {V : Type} (float : str -> res V) (add sub mul div pow : V -> V -> res V) (neg : V -> res V).
  (** the value; an error (such as a division by zero) is an error of the whole expression *)
  Fixpoint value (e : aexp) : option V :=
    match e with
    | Num s => match float s with Ok v => Some v | Raise _ => None end
    | ParA x | Pos x => value x
    | Neg x => match value x with Some v => match neg v with Ok v => Some v | _ => None end | None => None end
    | BinA l o r =>
        match value l, value r with
        | Some x, Some y =>
            match (match o with OAdd => add | OSub => sub | OMul => mul | ODiv => div | OPow => pow end) x y with
            | Ok v => Some v | Raise _ => None
            end
        | _, _ => None
        end
    end.
End Value.
