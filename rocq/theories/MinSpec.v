(** Specification of minimal deterministic automata, independent of the classes of the code. *)
From Verif Require Import Base Graph Automaton AutomatonSpec RevuzSpec.

(** A finite deterministic automaton: its states, its transitions, its initial state and its final states *)
Record dfa (A : Type) := DFA { d_states : list nat; d_trans : list (edge A); d_init : nat; d_final : nat -> bool }.
Arguments DFA {A}. Arguments d_states {A}. Arguments d_trans {A}. Arguments d_init {A}. Arguments d_final {A}.

Section S.
  Context {A : Type}.
  Record wf_dfa (d : dfa A) : Prop := {
    wf_nodup : NoDup (d_states d);
    wf_init : In (d_init d) (d_states d);
    wf_trans : forall q r a, In (Edge q r a) (d_trans d) -> In q (d_states d) /\ In r (d_states d);
    wf_det : forall q r r' a, In (Edge q r a) (d_trans d) -> In (Edge q r' a) (d_trans d) -> r = r' }.
  (** the words accepted from a state, and by the automaton *)
  Definition words_of (d : dfa A) (q : nat) (w : list A) : Prop := right (d_trans d) (d_final d) q w.
  Definition language (d : dfa A) (w : list A) : Prop := words_of d (d_init d) w.
  Definition accessible (d : dfa A) : Prop := forall q, In q (d_states d) -> exists w, path (d_trans d) (d_init d) w q.
  Definition coaccessible (d : dfa A) : Prop := forall q, In q (d_states d) -> exists w, words_of d q w.
  (** every state has exactly the symbols of [S] *)
  Definition complete_over (S : list A) (d : dfa A) : Prop :=
    (forall q r a, In (Edge q r a) (d_trans d) -> In a S) /\ forall q a, In q (d_states d) -> In a S -> exists r, In (Edge q r a) (d_trans d).
  (** two automata are the same up to the names of the states *)
  Definition isomorphic (d d' : dfa A) : Prop := exists f : nat -> nat,
    (forall q, In q (d_states d) -> In (f q) (d_states d')) /\ (forall q', In q' (d_states d') -> exists q, In q (d_states d) /\ f q = q') /\
    (forall p q, In p (d_states d) -> In q (d_states d) -> f p = f q -> p = q) /\
    f (d_init d) = d_init d' /\ (forall q, In q (d_states d) -> d_final d' (f q) = d_final d q) /\
    forall p q a, In p (d_states d) -> In q (d_states d) -> (In (Edge p q a) (d_trans d) <-> In (Edge (f p) (f q) a) (d_trans d')).
End S.

(** The automaton held by an IncidenceAutomaton whose initial state is [q0] *)
Definition ia_dfa {A} (g : iaut A) (q0 : nat) : dfa A := DFA (IA_vertices g) (IA_edges g) q0 (A_is_final (ia_base g)).
