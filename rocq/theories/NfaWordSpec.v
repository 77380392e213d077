(** Specification for C122: runs in which the epsilon symbol may also be read in the word. *)
From Coq Require Import List.
Import ListNotations.

Section S.
  Context {A : Type} (T : nat -> A -> nat -> Prop) (eps : A).
  (** [reads q w t]: a path from [q] to [t] reads [w]: every symbol of [w], epsilon included, is read by a
      transition that carries it, and transitions that carry epsilon may also be taken without reading. *)
  Inductive reads : nat -> list A -> nat -> Prop :=
  | reads_nil q : reads q [] q
  | reads_silent q r t w : T q eps r -> reads r w t -> reads q w t
  | reads_symbol q a r t w : T q a r -> reads r w t -> reads q (a :: w) t.
End S.
