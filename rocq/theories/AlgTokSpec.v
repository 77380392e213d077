(** Vocabulary of C135: the tokens of an arithmetic expression. *)
From Coq Require Import String.
From Verif Require Import Str Alg.
Open Scope string_scope.
Open Scope list_scope.

(** the texts that stand for an operator or a parenthesis *)
Definition alg_operators : list str := [lit "u+"; lit "u-"; lit "^"; lit "*"; lit "/"; lit "+"; lit "-"; lit "("; lit ")"].
Definition begins_with_operator (s : str) : Prop := exists t rest, In t alg_operators /\ s = t ++ rest.

Inductive apiece := Number (u : str) | Sign (t : str).
Definition apiece_text (p : apiece) : str := match p with Number u => u | Sign t => t end.

(** A text is cut from left to right: an operator where there is one, the longest text without an operator elsewhere. *)
Inductive cut : str -> list apiece -> Prop :=
| cut_end : cut [] []
| cut_sign t s l : In t alg_operators -> cut s l -> cut (t ++ s) (Sign t :: l)
| cut_number u s l : u <> [] -> (forall u1 u2, u = u1 ++ u2 -> u2 <> [] -> ~ begins_with_operator (u2 ++ s)) ->
    (s = [] \/ begins_with_operator s) -> cut s l -> cut (u ++ s) (Number u :: l).

(** an operand ends with a number or a closing parenthesis *)
Definition ends_an_operand (p : option apiece) : Prop := (exists u, p = Some (Number u)) \/ p = Some (Sign (lit ")")).
Definition parenthesis (t : str) : Prop := t = lit "(" \/ t = lit ")".

(** The tokens of the pieces, [p] being the piece before: the value of a number; a sign + or - which follows no operand becomes
    the unary u+ or u-; what follows an operand, and the parentheses, are kept. *)
Inductive alg_tokens {V} (float : str -> res V) : option apiece -> list apiece -> list (atok V) -> Prop :=
| at_nil p : alg_tokens float p [] []
| at_number p u v l r : float u = Ok v -> alg_tokens float (Some (Number u)) l r -> alg_tokens float p (Number u :: l) (ANum v :: r)
| at_kept p t l r : parenthesis t \/ ends_an_operand p -> alg_tokens float (Some (Sign t)) l r -> alg_tokens float p (Sign t :: l) (AStr t :: r)
| at_unary p t l r : ~ ends_an_operand p -> t = lit "+" \/ t = lit "-" -> alg_tokens float (Some (Sign t)) l r ->
    alg_tokens float p (Sign t :: l) (AStr (lit "u" ++ t) :: r).

(** the piece which is the last one of [l], or [p] if there is none *)
Definition last_piece (p : option apiece) (l : list apiece) : option apiece := match rev l with [] => p | q :: _ => Some q end.
(** A piece that has no token: a text which is not a number, another operator where an operand is expected. *)
Definition bad_piece {V} (float : str -> res V) (before : option apiece) (p : apiece) (ex : exn) : Prop :=
  match p with
  | Number u => float u = Raise ex
  | Sign t => ~ parenthesis t /\ ~ ends_an_operand before /\ t <> lit "+" /\ t <> lit "-" /\ ex = RuntimeError
  end.
