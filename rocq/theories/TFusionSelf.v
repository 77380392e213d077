(** C120: inserting a trie in itself. *)
From Verif Require Import Graph GraphProofs Automaton AutomatonSpec AutomatonProofs Trie PBFS PBFSProofs FusionSelf FusionSelfProofs Base BaseProofs.

Section T.
  Context {A : Type} {EA : EqDec A}.

  (** C120: [t.insert(t)] ends without exception and changes nothing, for every automaton in the place of the trie (also with cycles) and every order of iteration of the sets of symbols: same states, same
      transitions, same initial and final states, same words, and the same number for the next vertex. *)
  Theorem C120_insert_self (g : aut A) ord fuel : valid_order ord -> A_num_edges g + 3 <= fuel ->
    exists g', T_insert_self ord fuel g = Some (g', Ok tt) /\
      A_vertices g' = A_vertices g /\ A_edges g' = A_edges g /\ A_initial g' = A_initial g /\ (forall q, A_is_final g' q = A_is_final g q) /\
      (forall w, A_accepts g' w = A_accepts g w) /\ snd (A_add_vertex g') = snd (A_add_vertex g).
  Proof.
    intros O F. destruct (insert_self_spec g ord fuel O F) as (g' & E & L & D & Q & FI). exists g'. split; [exact E|]. unfold A_vertices, A_edges, A_initial, A_is_final. rewrite D.
    split; [reflexivity|]. split; [reflexivity|]. split; [exact Q|]. split; [exact FI|]. split.
    - intros w. unfold A_accepts, A_initial, A_is_final. rewrite Q. replace (A_delta_word g' (au_q0 g) w) with (A_delta_word g (au_q0 g) w); [destruct (A_delta_word _ _ _); auto|].
      generalize (au_q0 g). induction w as [|a w IH]; intros q; [reflexivity|]. cbn. destruct q as [q|]; [|reflexivity]. unfold A_delta. rewrite D. apply IH.
    - unfold A_add_vertex. rewrite L. reflexivity.
  Qed.
End T.

(** The trie of "a", "abc", inserted in itself, its symbols read in reverse order; and an automaton with a cycle through its initial state, which is examined twice. *)
Example C120_ex_trie : option_map (fun r => (A_edges (fst r), A_finals (fst r), snd r)) (T_insert_self (fun _ l => rev l) 6 (fst (T_inserts T_init [[1]; [1; 2; 3]]))) =
  Some ([Edge 0 1 1; Edge 1 2 2; Edge 2 3 3], [1; 3], Ok tt).
Proof. vm_compute. reflexivity. Qed.
Example C120_ex_cycle : let g := A_set_final (fst (A_add_edge (fst (A_add_edge (A_init 2) 0 1 7)) 1 0 8)) 1 true in
  option_map (fun r => (A_edges (fst r), A_finals (fst r), snd r)) (T_insert_self (fun _ l => l) 5 g) = Some ([Edge 0 1 7; Edge 1 0 8], [1], Ok tt) /\ A_num_edges g + 3 = 5.
Proof. vm_compute. split; reflexivity. Qed.

Print Assumptions C120_insert_self.
