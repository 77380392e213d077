(** make_suffix_trie called with its parameter [g], suffix_trie.py:63-100. *)
From Verif Require Import Base Graph Automaton Trie.

Section M.
  Context {A : Type} {EA : EqDec A}.

  (** make_suffix_trie(w, max_len, g), suffix_trie.py:63-100, for a Trie [g] (not None), which is
      extended in place and returned: a vertex is added if there is none (suffix_trie.py:82-83), then the
      suffixes are walked (suffix_trie.py:91-99). Simplification: a BOTTOM initial state (never the case for a
      Trie) raises. *)
  Definition make_suffix_trie_into (g : aut A) (w : list A) (max_len : option nat) : aut A * res unit :=
    let (g0, r0) := if A_num_vertices g =? 0 then A_add_vertex g else (g, Ok 0) in
    match r0 with
    | Raise e => (g0, Raise e)
    | Ok _ =>
        let n := length w in
        foreach (fun g i =>
          match A_initial g with
          | None => (g, Raise KeyError)
          | Some q0 => suffix_walk g q0 (slice w i (stop n i max_len))
          end) g0 (seq 0 n)
    end.

  (** Successive calls on the same trie (of suffix_trie.py:63-100; no counterpart in /repo). *)
  Definition make_suffix_tries_into (g : aut A) (calls : list (list A * option nat)) : aut A * res unit :=
    foreach (fun g '(w, max_len) => make_suffix_trie_into g w max_len) g calls.
End M.
