(** Model of src/pybgl/trie.py (insertion of words), suffix_trie.py and digital_sequence.py. *)
From Verif Require Import Base Graph Automaton.

Section Trie.
  Context {A : Type} `{EqDec A}.

  (** Trie.__init__, trie.py:30-33: one vertex, no final state. *)
  Definition T_init : aut A := A_init 1.

  (** Automaton.delta_best_effort, automaton.py:402-423, from state [q] at position [i]; the result
      is (reached state, number of consumed symbols). The initial state is not BOTTOM here. *)
  Fixpoint best_effort (g : aut A) (q : nat) (i : nat) (w : list A) : nat * nat :=
    match w with
    | [] => (q, i)
    | a :: w' =>
        match A_delta g q a with
        | None => (q, i)
        | Some r => best_effort g r (S i) w'
        end
    end.

  (** the loop of automaton_insert_string, automaton.py:437-440. *)
  Fixpoint insert_loop (g : aut A) (q : nat) (w : list A) : aut A * res nat :=
    match w with
    | [] => (g, Ok q)
    | a :: w' =>
        match A_add_vertex g with
        | (g1, Raise e) => (g1, Raise e)
        | (g1, Ok r) =>
            match A_add_edge g1 q r a with
            | (g2, Raise e) => (g2, Raise e)
            | (g2, Ok _) => insert_loop g2 r w'
            end
        end
    end.

  (** Automaton.automaton_insert_string, automaton.py:425-441, called by Trie.insert on a word
      (trie.py:35-42). Simplification: a BOTTOM initial state (never the case for a Trie) raises. *)
  Definition T_insert (g : aut A) (w : list A) : aut A * res unit :=
    match A_initial g with
    | None => (g, Raise KeyError)
    | Some q0 =>
        let '(q, i) := best_effort g q0 0 w in
        match insert_loop g q (skipn i w) with
        | (g1, Raise e) => (g1, Raise e)
        | (g1, Ok q1) => (A_set_final g1 q1 true, Ok tt)
        end
    end.

  (** Successive insertions (of trie.py:35-44; no counterpart in /repo). *)
  Definition T_inserts (g : aut A) (ws : list (list A)) : aut A * res unit := foreach T_insert g ws.

  (** Trie.num_edges, trie.py:46-50. *)
  Definition T_num_edges (g : aut A) : nat :=
    let n := A_num_vertices g in if n =? 0 then 0 else n - 1.

  (** Bound of the inner loop, [min(n, i + max_len) if max_len else n] (suffix_trie.py:36, 93); a
      [max_len] of 0 is falsy. *)
  Definition stop (n i : nat) (max_len : option nat) : nat :=
    match max_len with
    | None | Some 0 => n
    | Some m => Nat.min n (i + m)
    end.

  (** slices, suffix_trie.py:12-39. *)
  Definition slices (n : nat) (max_len : option nat) : list (nat * nat) :=
    (0, 0) :: flat_map (fun i => map (fun j => (i, j)) (seq (S i) (stop n i max_len - i))) (seq 0 n).

  (** s[i:j] (suffix_trie.py:60) *)
  Definition slice (s : list A) (i j : nat) : list A := firstn (j - i) (skipn i s).

  (** factors, suffix_trie.py:42-60. *)
  Definition factors (s : list A) (max_len : option nat) : list (list A) :=
    map (fun '(i, j) => slice s i j) (slices (length s) max_len).

  (** inner loop of make_suffix_trie on the symbols w[i], ..., suffix_trie.py:93-99. *)
  Fixpoint suffix_walk (g : aut A) (q : nat) (u : list A) : aut A * res unit :=
    match u with
    | [] => (g, Ok tt)
    | a :: u' =>
        match A_delta g q a with
        | Some r => suffix_walk g r u'
        | None =>
            match A_add_vertex g with
            | (g1, Raise e) => (g1, Raise e)
            | (g1, Ok r) =>
                match A_add_edge g1 q r a with
                | (g2, Raise e) => (g2, Raise e)
                | (g2, Ok _) => suffix_walk g2 r u'
                end
            end
        end
    end.

  (** make_suffix_trie(w, max_len), suffix_trie.py:63-100 (argument [g] left to its default: a Trie
      in which every state is final). *)
  Definition ST_init : aut A := mkAut (au_last T_init) (au_adj T_init) (au_q0 T_init) (fun _ => true).
  (** make_suffix_trie, suffix_trie.py:63-100. *)
  Definition make_suffix_trie (w : list A) (max_len : option nat) : aut A * res unit :=
    let n := length w in
    foreach (fun g i =>
      match A_initial g with
      | None => (g, Raise KeyError)
      | Some q0 => suffix_walk g q0 (slice w i (stop n i max_len))
      end) ST_init (seq 0 n).

  (** ** DigitalSequence, digital_sequence.py:15-121: the word itself is the state. *)
  (** digital_sequence.py:115-117, 103-109, 87-97. *)
  Definition DS_is_final (w : list A) (q : nat) : bool := q =? length w.
  (** initial, digital_sequence.py:103-105. *)
  Definition DS_initial (w : list A) : nat := 0.
  (** is_initial, digital_sequence.py:107-109. *)
  Definition DS_is_initial (w : list A) (q : nat) : bool := q =? 0.
  (** vertices, digital_sequence.py:87-89. *)
  Definition DS_vertices (w : list A) : list nat := seq 0 (length w + 1).
  (** num_vertices, digital_sequence.py:91-93. *)
  Definition DS_num_vertices (w : list A) : nat := length w + 1.
  (** num_edges, digital_sequence.py:95-97. *)
  Definition DS_num_edges (w : list A) : nat := length w.

  (** [self.w[q]] raises IndexError out of range (digital_sequence.py:31-85). *)
  Definition DS_nth (w : list A) (q : nat) : res A :=
    match nth_error w q with Some a => Ok a | None => Raise IndexError end.

  (** delta, digital_sequence.py:35-44. *)
  Definition DS_delta (w : list A) (q : nat) (a : A) : res (option nat) :=
    if DS_is_final w q then Ok None
    else match DS_nth w q with
         | Raise e => Raise e
         | Ok b => Ok (if eqb b a then Some (q + 1) else None)
         end.

  (** edges, out_edges, in_edges, sigma, alphabet: digital_sequence.py:31-33, 54-66, 76-85. *)
  Definition DS_edges (w : list A) : list (edge A) :=
    map (fun '(q, a) => Edge q (q + 1) a) (combine (seq 0 (length w)) w).
  (** out_edges, digital_sequence.py:61-66. *)
  Definition DS_out_edges (w : list A) (q : nat) : res (list (edge A)) :=
    if DS_is_final w q then Ok []
    else match DS_nth w q with Ok a => Ok [Edge q (q + 1) a] | Raise e => Raise e end.
  (** in_edges, digital_sequence.py:54-59. *)
  Definition DS_in_edges (w : list A) (q : nat) : res (list (edge A)) :=
    if DS_is_initial w q then Ok []
    else match DS_nth w (q - 1) with Ok a => Ok [Edge (q - 1) q a] | Raise e => Raise e end.
  (** sigma, digital_sequence.py:76-78. *)
  Definition DS_sigma (w : list A) (q : option nat) : res (list A) :=
    match q with
    | None => Ok []
    | Some q => if DS_is_final w q then Ok []
                else match DS_nth w q with Ok a => Ok [a] | Raise e => Raise e end
    end.
  (** alphabet, digital_sequence.py:31-33. *)
  Definition DS_alphabet (w : list A) : list A := sof w.

  (** Automaton.delta_word and accepts with the overloaded methods, automaton.py:328-363. *)
  Fixpoint DS_delta_word (w : list A) (q : option nat) (u : list A) : res (option nat) :=
    match u with
    | [] => Ok q
    | a :: u' =>
        match q with
        | None => Ok None
        | Some q' =>
            match DS_delta w q' a with
            | Raise e => Raise e
            | Ok r => DS_delta_word w r u'
            end
        end
    end.
  (** Automaton.accepts, automaton.py:348-363. *)
  Definition DS_accepts (w : list A) (u : list A) : res bool :=
    match DS_delta_word w (Some (DS_initial w)) u with
    | Raise e => Raise e
    | Ok None => Ok false
    | Ok (Some q) => Ok (DS_is_final w q)
    end.
End Trie.
