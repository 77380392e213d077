(** Specification for C136: what the states and the transitions of a product of automata are. *)
From Verif Require Import Base Graph Automaton.

Section S.
  Context {A : Type} {EA : EqDec A}.
  Notation spair := (option nat * option nat)%type.

  (** The pair of states reached by a word from the initial states (None: no state any more). *)
  Definition pair_after (g1 g2 : aut A) (w : list A) : spair :=
    (A_delta_word g1 (A_initial g1) w, A_delta_word g2 (A_initial g2) w).

  (** The pair reached from a pair by a symbol. *)
  Definition pair_step (g1 g2 : aut A) (p : spair) (a : A) : spair :=
    (A_delta_word g1 (fst p) [a], A_delta_word g2 (snd p) [a]).

  (** [g12] is the automaton whose states are named by the pairs of [states], whose transitions are
      the [moves] between them, and whose final states are those that [comb] tells: [pair] is a
      one-to-one correspondence between the states and the pairs. *)
  Record product_of (g1 g2 g12 : aut A) (comb : bool -> bool -> bool)
      (states : spair -> Prop) (moves : spair -> A -> Prop) (pair : nat -> spair) : Prop := {
    po_nodup : NoDup (A_vertices g12);
    po_state : forall v, In v (A_vertices g12) -> states (pair v);
    po_onto : forall p, states p -> exists v, In v (A_vertices g12) /\ pair v = p;
    po_inj : forall v v', In v (A_vertices g12) -> In v' (A_vertices g12) -> pair v = pair v' -> v = v';
    po_move : forall v a r, In v (A_vertices g12) ->
      (A_delta g12 v a = Some r <-> moves (pair v) a /\ In r (A_vertices g12) /\ pair r = pair_step g1 g2 (pair v) a);
    po_final : forall v, In v (A_vertices g12) ->
      A_is_final g12 v = comb (match fst (pair v) with Some q => A_is_final g1 q | None => false end)
                              (match snd (pair v) with Some q => A_is_final g2 q | None => false end) }.
End S.
