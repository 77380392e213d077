(** What a list of transitions [(source, target, symbol)] that may name several targets for one source and symbol is
    turned into. *)
From Verif Require Import Base.

Section S.
  Context {A N : Type} {EA : EqDec A} {EN : EqDec N}.
  (** the targets listed for a source and a symbol, in order *)
  Definition targets (tr : list (N * N * A)) (q : N) (a : A) : list N :=
    flat_map (fun '(q', r, a') => if eqb q' q && eqb a' a then [r] else []) tr.
  (** the one that is kept: the first one other than the first name, if any; else the first name *)
  Definition kept (first : option N) (ts : list N) : option N :=
    match find (fun t => negb (eqb (Some t) first)) ts with
    | Some t => Some t
    | None => hd_error ts
    end.
End S.
