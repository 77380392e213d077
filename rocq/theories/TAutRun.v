(** Theorem C97: delta_best_effort and accepts_debug. *)
From Verif Require Import Graph Automaton AutomatonSpec Trie PBFS PBFSProofs2 Insert AutRun Base BaseProofs.

Section C97.
  Context {A : Type} {EA : EqDec A}.
  (** the state reached by reading the first [i] symbols of [w], None when there is none *)
  Definition after (g : aut A) (w : list A) (i : nat) : option nat := A_delta_word g (A_initial g) (firstn i w).

  Lemma best_effort_longest (g : aut A) w : forall q i, let '(r, j) := best_effort g q i w in
    exists k, j = i + k /\ k <= length w /\ A_delta_word g (Some q) (firstn k w) = Some r /\ forall n, k < n -> n <= length w -> A_delta_word g (Some q) (firstn n w) = None.
  Proof.
    induction w as [|a w IH]; intros q i; cbn [best_effort].
    - exists 0. repeat split; cbn; lia.
    - destruct (A_delta g q a) as [r|] eqn:D.
      + specialize (IH r (S i)). destruct (best_effort g r (S i) w) as [t j]. destruct IH as (k & -> & L & E & H). exists (S k). split; [lia|]. split; [cbn; lia|]. split; [cbn; rewrite D; exact E|].
        intros [|n] L1 L2; [lia|]. cbn in *. rewrite D. apply H; lia.
      + exists 0. split; [lia|]. split; [lia|]. split; [reflexivity|]. intros [|n] L1 L2; [lia|]. cbn. rewrite D. apply delta_word_None.
  Qed.

  (** C97: delta_best_effort reads the longest prefix that the automaton can read; it returns the state reached and the
      length of that prefix. From BOTTOM it reads nothing. *)
  Theorem C97_delta_best_effort (g : aut A) w : let '(q, i) := A_delta_best_effort g w in
    i <= length w /\ after g w i = q /\ (forall n, i < n -> n <= length w -> after g w n = None) /\ (A_initial g <> None -> q <> None) /\ (A_initial g = None -> i = 0).
  Proof.
    unfold A_delta_best_effort, after. destruct (A_initial g) as [q0|].
    - pose proof (best_effort_longest g w q0 0) as X. destruct (best_effort g q0 0 w) as [r j]. destruct X as (k & -> & L & E & H). cbn [plus]. repeat split; try assumption; discriminate.
    - split; [lia|]. split; [reflexivity|]. split; [intros n _ _; apply delta_word_None|]. split; [congruence|reflexivity].
  Qed.

  (** the lines of a run from [q]: one per symbol, until the first one read from BOTTOM *)
  Definition lines_of (g : aut A) (q : option nat) (w : list A) (i : nat) (ls : list (line A)) : Prop :=
    length ls <= length w /\
    (forall k, k < length ls -> exists a, nth_error w k = Some a /\ nth_error ls k = Some (Line (i + k) a (A_delta_word g q (firstn k w)) (A_delta_word g q (firstn (S k) w)))) /\
    (forall k, S k < length ls -> A_delta_word g q (firstn k w) <> None) /\
    (length ls < length w -> exists k, length ls = S k /\ A_delta_word g q (firstn k w) = None).

  Lemma debug_loop (g : aut A) bf w : forall i q, let '(ls, b) := accepts_debug_loop g bf i q w in
    lines_of g q w i ls /\
    (A_delta_word g q w = None /\ (forall k, k < length w -> A_delta_word g q (firstn k w) <> None) -> b = bf) /\
    (~ (A_delta_word g q w = None /\ forall k, k < length w -> A_delta_word g q (firstn k w) <> None) -> b = A_is_final_opt g (A_delta_word g q w)).
  Proof.
    induction w as [|a w IH]; intros i q.
    - cbn. split; [|split].
      + split; [cbn; lia|]. split; [intros k L; cbn in L; lia|]. split; [intros k L; cbn in L; lia|cbn; lia].
      + intros [-> _]. reflexivity.
      + intros X. destruct q as [q|]; [reflexivity|]. destruct X. split; [reflexivity|]. intros k L. lia.
    - destruct q as [q|]; cbn [accepts_debug_loop].
      + cbn [odelta]. specialize (IH (S i) (A_delta g q a)). destruct (accepts_debug_loop g bf (S i) (A_delta g q a) w) as [ls b]. destruct IH as ((L1 & L2 & L3 & L4) & B1 & B2). split; [|split].
        * split; [cbn; lia|]. split; [|split].
          -- intros [|k] Lk; [exists a; cbn; rewrite Nat.add_0_r; split; reflexivity|]. cbn [length] in Lk. destruct (L2 k) as (x & N & E); [lia|]. exists x. cbn [nth_error firstn A_delta_word]. split; [exact N|]. rewrite E. f_equal. f_equal. lia.
          -- intros [|k] Lk; [cbn; discriminate|]. cbn [length] in Lk. cbn [firstn A_delta_word]. apply L3. lia.
          -- cbn [length]. intros Lt. destruct L4 as (k & E & N); [lia|]. exists (S k). split; [lia|]. exact N.
        * cbn [A_delta_word length]. intros [N X]. apply B1. split; [exact N|]. intros k Lk. apply (X (S k)). lia.
        * cbn [A_delta_word length]. intros X. apply B2. intros [N Y]. apply X. split; [exact N|]. intros [|k] Lk; [cbn; discriminate|]. apply Y. lia.
      + split; [|split].
        * split; [cbn; lia|]. split; [|split].
          -- intros [|k] Lk; [exists a; cbn; rewrite Nat.add_0_r; split; reflexivity|cbn in Lk; lia].
          -- intros k Lk. cbn in Lk. lia.
          -- intros _. exists 0. split; reflexivity.
        * intros [_ X]. destruct (X 0); [cbn; lia|reflexivity].
        * intros _. rewrite delta_word_None. reflexivity.
  Qed.

  (** accepts_debug returns what accepts does, and it prints the run of the automaton on the word. This when is_final
      answers False on BOTTOM: *)
  Theorem C97_accepts_debug (g : aut A) w : let '(first, ls, b) := accepts_debug g false w in
    b = A_accepts g w /\ first = (w, A_initial g) /\ lines_of g (A_initial g) w 0 ls.
  Proof.
    unfold accepts_debug. pose proof (debug_loop g false w 0 (A_initial g)) as X. destruct (accepts_debug_loop g false 0 (A_initial g) w) as [ls b]. destruct X as (L & B1 & B2). split; [|split; [reflexivity|exact L]].
    rewrite accepts_final. destruct b.
    - symmetry. destruct (A_delta_word g (A_initial g) w) as [r|] eqn:E.
      + symmetry. apply B2. intros [Y _]. discriminate Y.
      + exfalso. assert (true <> false) as NT by discriminate. apply NT. cbn in B2. apply B2. intros Y. apply NT, B1, Y.
    - destruct (A_delta_word g (A_initial g) w) as [r|] eqn:E; [|reflexivity]. apply B2. intros [Y _]. discriminate Y.
  Qed.
  (** otherwise the answer is wrong exactly for the words which no state reads to the end, but all of whose proper
      prefixes are read *)
  Theorem C97_accepts_debug_bottom (g : aut A) w : let '(_, _, b) := accepts_debug g true w in
    b = true <-> A_accepts g w = true \/ (after g w (length w) = None /\ forall k, k < length w -> after g w k <> None).
  Proof.
    unfold accepts_debug, after. pose proof (debug_loop g true w 0 (A_initial g)) as X. destruct (accepts_debug_loop g true 0 (A_initial g) w) as [ls b]. destruct X as (_ & B1 & B2).
    rewrite firstn_all, accepts_final. split.
    - intros ->. destruct (A_delta_word g (A_initial g) w) as [r|] eqn:E; [left; symmetry; apply B2; intros [Y _]; discriminate Y|]. right. split; [reflexivity|].
      intros k Lk Z. cbn in B2. assert (true = false); [|discriminate]. apply B2. intros [_ Y]. apply (Y k Lk Z).
    - intros [F|Y]; [|apply B1, Y]. destruct (A_delta_word g (A_initial g) w) as [r|] eqn:E; [|discriminate F]. rewrite B2; [exact F|]. intros [Y _]. discriminate Y.
  Qed.
End C97.

(** 0 -5-> 1 -6-> 2, with 2 final *)
Definition ex_run : aut nat := fst (runs A_call (A_init 3) [AAddEdge 0 1 5; AAddEdge 1 2 6; ASetFinal 2 true]).
(** after set_final(BOTTOM), accepts_debug says yes to the word 7 *)
Theorem C97_accepts_debug_refuted : exists (g : aut nat) w, snd (accepts_debug g true w) = true /\ A_accepts g w = false.
Proof. exists ex_run, [7]. split; reflexivity. Qed.
Example C97_example : A_delta_best_effort ex_run [5; 7; 6] = (Some 1, 1) /\ A_delta_best_effort ex_run [5; 6] = (Some 2, 2) /\ A_delta_best_effort (A_set_initial ex_run (Some 0) false) [5] = (None, 0).
Proof. repeat split; reflexivity. Qed.
Example C97_example2 : accepts_debug ex_run false [5; 6] = (([5; 6], Some 0), [Line 0 5 (Some 0) (Some 1); Line 1 6 (Some 1) (Some 2)], true) /\
  accepts_debug ex_run false [5; 7; 6; 6] = (([5; 7; 6; 6], Some 0), [Line 0 5 (Some 0) (Some 1); Line 1 7 (Some 1) None; Line 2 6 None None], false).
Proof. split; reflexivity. Qed.
Print Assumptions C97_delta_best_effort.
Print Assumptions C97_accepts_debug.
Print Assumptions C97_accepts_debug_bottom.
Print Assumptions C97_accepts_debug_refuted.
