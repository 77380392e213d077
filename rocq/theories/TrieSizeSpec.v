(** Vocabulary of C132: what it is for an automaton to be the tree of a set of words. *)
From Verif Require Import Base Automaton AutomatonSpec TrieSpec MinSpec.

Section S.
  Context {A : Type} {EA : EqDec A}.

  (** The states of [g] are, one for one, the words of [W]: [g] reads a word from its initial state
      exactly when the word is in [W], it ends in a state of [g], each state ends one word only, and
      there are as many states as words (for any way of listing the words of [W] once each). *)
  Record tree_of (g : aut A) (W : list A -> Prop) : Prop := {
    tree_reads : forall w, A_delta_word g (A_initial g) w <> None <-> W w;
    tree_state : forall v, In v (A_vertices g) <-> exists w, A_delta_word g (A_initial g) w = Some v;
    tree_one : forall w w' v, A_delta_word g (A_initial g) w = Some v -> A_delta_word g (A_initial g) w' = Some v -> w = w';
    tree_count : forall L, NoDup L -> (forall w, In w L <-> W w) -> length (A_vertices g) = length L
  }.

  (** the prefixes of the words of a language, and the empty word (the root of an empty trie) *)
  Definition prefixes_of (accepted : list A -> Prop) (w : list A) : Prop :=
    w = [] \/ exists x, accepted x /\ is_prefix w x.

  (** The automaton held by an Automaton whose initial state is [q0]. *)
  Definition aut_dfa (g : aut A) (q0 : nat) : dfa A := DFA (A_vertices g) (A_edges g) q0 (A_is_final g).
End S.
