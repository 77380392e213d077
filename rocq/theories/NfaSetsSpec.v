(** What alphabet() and sigma() remember of the transitions: the pairs (q, a) such that a transition from q with symbol a was
    added since q was last created or removed. Removing a transition, or its target, is forgotten. *)
From Verif Require Import Base Graph Automaton Nfa NfaSpec.

Section Spec.
  Context {A : Type} {EA : EqDec A}.
  Definition noted_step (s : anfa A) (m : list (nat * A)) (op : nfop A) : list (nat * A) :=
    match op with
    | FAddVertex => filter (fun x => negb (fst x =? an_next s)) m
    | FAddEdge q _ a => (q, a) :: m
    | FRemoveVertex u => filter (fun x => negb (fst x =? u)) m
    | FClear => []
    | _ => m
    end.
  Fixpoint noted (s : anfa A) (m : list (nat * A)) (ops : list (nfop A)) : list (nat * A) :=
    match ops with
    | [] => m
    | op :: ops' => noted (an_step s op) (noted_step s m op) ops'
    end.
  (** calls that remove neither a transition nor a state (clear() removes all) *)
  Definition keeps (op : nfop A) : bool := match op with FRemoveEdge _ _ _ | FRemoveVertex _ => false | _ => true end.
End Spec.
