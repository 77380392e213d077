(** Theorems C56, C57, C58, C59, C61 on the edit distances. *)
From Coq Require Import String.
From Verif Require Import Base BaseProofs Str SearchSpec EditDistance EditSpec EditProofs.
Open Scope string_scope. Open Scope nat_scope. Open Scope list_scope.

(** C56 *)
Theorem C56_levenshtein_distance {A} {EA : EqDec A} (x y : list A) : exists d, levenshtein_distance x y = Some d /\ least edit x y d.
Proof. exists (lev x y). split; [apply levenshtein_eq|apply lev_spec]. Qed.
Theorem C56_levenshtein_distance_naive {A} {EA : EqDec A} (x y : list A) : levenshtein_distance_naive x y = levenshtein_distance x y.
Proof.
  rewrite levenshtein_eq. unfold levenshtein_distance_naive. destruct x as [|a x]; [rewrite lev_nil_l; destruct y; reflexivity|]. destruct y as [|b y]; [reflexivity|].
  rewrite !levenshtein_eq, lev_cons. destruct (eqb a b); reflexivity.
Qed.
Example C56_example : levenshtein_distance (lit "kitten") (lit "sitting") = Some 3 /\ levenshtein_distance (lit "") (lit "abc") = Some 3 /\ levenshtein_distance (lit "flaw") (lit "lawn") = Some 2.
Proof. vm_compute. auto. Qed.

(** C57 *)
Theorem C57_levenshtein_metric {A} {EA : EqDec A} : exists dist, (forall x y : list A, levenshtein_distance x y = Some (dist x y)) /\
  separated dist /\ symmetric dist /\ triangular dist.
Proof. exists lev. split; [apply levenshtein_eq|apply lev_metric]. Qed.

(** C58 *)
Theorem C58_lcs_distance {A} {EA : EqDec A} (x y : list A) : exists d l, lcs_distance x y = Some d /\ least indel x y d /\
  longest_common x y l /\ d + 2 * l = length x + length y.
Proof. destruct (lcsd_common x y) as (l & L1 & L2). exists (lcsd x y), l. split; [apply lcs_eq|]. split; [apply lcsd_spec|]. auto. Qed.
Theorem C58_lcs_metric {A} {EA : EqDec A} : exists dist, (forall x y : list A, lcs_distance x y = Some (dist x y)) /\
  separated dist /\ symmetric dist /\ triangular dist.
Proof. exists lcsd. split; [apply lcs_eq|apply lcsd_metric]. Qed.
Theorem C58_lcs_distance_naive {A} {EA : EqDec A} (x y : list A) : lcs_distance_naive x y = lcs_distance x y.
Proof.
  rewrite lcs_eq. unfold lcs_distance_naive. destruct x as [|a x]; [rewrite lcsd_nil_l; destruct y; reflexivity|]. destruct y as [|b y]; [reflexivity|].
  rewrite !lcs_eq, lcsd_cons. destruct (eqb a b); reflexivity.
Qed.
Example C57_example : levenshtein_distance (lit "flaw") (lit "lawn") = Some 2 /\ levenshtein_distance (lit "lawn") (lit "flaw") = Some 2 /\
  levenshtein_distance (lit "flaw") (lit "lawns") = Some 3 /\ levenshtein_distance (lit "lawn") (lit "lawns") = Some 1 /\ levenshtein_distance (lit "flaw") (lit "flaw") = Some 0.
Proof. repeat split; vm_compute; reflexivity. Qed.
Example C58_example : lcs_distance (lit "kitten") (lit "sitting") = Some 5 /\ lcs_distance (lit "abcbdab") (lit "bdcaba") = Some 5.
Proof. vm_compute. auto. Qed.

(** C59 is false: CA -> AC -> ABC takes two steps, but the function answers 3: it never edits between two letters that it
    swaps. The triangle inequality fails on the same words. *)
Theorem C59_damerau_refuted : exists (x y : str) d n, damerau_levenshtein_distance x y = Some d /\ walk edit_or_swap n x y /\ n < d.
Proof.
  exists (lit "CA"), (lit "ABC"), 3, 2. split; [vm_compute; reflexivity|]. split; [|lia].
  econstructor; [apply (swap [] (ch "C") (ch "A") [])|]. econstructor; [apply es_edit, edit_indel, (ins [ch "A"] (ch "B") [ch "C"])|]. constructor.
Qed.
Theorem C59_triangle_refuted : exists (x y z : str) dxy dyz dxz, damerau_levenshtein_distance x y = Some dxy /\
  damerau_levenshtein_distance y z = Some dyz /\ damerau_levenshtein_distance x z = Some dxz /\ dxy + dyz < dxz.
Proof. exists (lit "CA"), (lit "AC"), (lit "ABC"), 1, 1, 3. do 3 (split; [vm_compute; reflexivity|]). lia. Qed.
(** What it computes: the least number of blocks edited when the words are cut in blocks, each block being kept, substituted,
    inserted, deleted or swapped. It is symmetric, is 0 exactly on equal words, and is reached by a sequence of edits and
    swaps. *)
Lemma es_cons {A} a (x y : list A) : edit_or_swap x y -> edit_or_swap (a :: x) (a :: y).
Proof. intros [x' y' H|l b c r]; [apply es_edit, edit_cons, H|apply (swap (a :: l))]. Qed.
Lemma blocks_walk {A} n (x y : list A) : blocks n x y -> walk edit_or_swap n x y.
Proof.
  induction 1 as [|n a x y H IH|n a b x y H IH|n b x y H IH|n a x y H IH|n a b x y H IH]; [constructor| | | | |].
  - apply walk_cons; [apply es_cons|exact IH].
  - econstructor; [apply es_edit, (subst [] a b)|]. apply walk_cons; [apply es_cons|exact IH].
  - econstructor; [apply es_edit, edit_indel, (ins [] b)|]. apply walk_cons; [apply es_cons|exact IH].
  - econstructor; [apply es_edit, edit_indel, (del [] a)|]. exact IH.
  - econstructor; [apply (swap [] a b)|]. apply walk_cons; [apply es_cons|]. apply walk_cons; [apply es_cons|exact IH].
Qed.
Theorem C59_damerau_partial {A} {EA : EqDec A} (x y : list A) : exists d, damerau_levenshtein_distance x y = Some d /\
  blocks d x y /\ (forall n, blocks n x y -> d <= n) /\ walk edit_or_swap d x y.
Proof. exists (osa x y). destruct (osa_spec x y) as [H1 H2]. split; [apply damerau_eq|]. split; [exact H1|]. split; [exact H2|apply blocks_walk, H1]. Qed.
Theorem C59_semimetric_partial {A} {EA : EqDec A} : exists dist, (forall x y : list A, damerau_levenshtein_distance x y = Some (dist x y)) /\
  separated dist /\ symmetric dist.
Proof. exists osa. split; [apply damerau_eq|apply osa_semimetric]. Qed.
Example C59_example : damerau_levenshtein_distance (lit "abcd") (lit "bacd") = Some 1 /\ levenshtein_distance (lit "abcd") (lit "bacd") = Some 2 /\
  damerau_levenshtein_distance (lit "ca") (lit "abc") = Some 3.
Proof. vm_compute. auto. Qed.

(** C61: compute, called on an object any number of times at any positions, returns the values of the recursions run
    without memoization on the suffixes. *)
Fixpoint computes {A} `{EqDec A} (compute : nat -> list A -> list A -> nat -> nat -> memo -> memoized) (fuel : nat) (x y : list A) (l : list (nat * nat)) (t : memo) : option (list nat) :=
  match l with
  | [] => Some []
  | (i, j) :: l' => match compute fuel x y i j t with Some (d, t') => option_map (cons d) (computes compute fuel x y l' t') | None => None end
  end.
Lemma computes_spec {A} {EA : EqDec A} compute f (x y : list A) :
  (forall fuel i j t, i <= length x -> j <= length y -> (length x - i) + (length y - j) < fuel -> valid x y f t ->
     exists t', compute fuel x y i j t = Some (f (skipn i x) (skipn j y), t') /\ valid x y f t') ->
  forall l fuel t, length x + length y < fuel -> (forall i j, In (i, j) l -> i <= length x /\ j <= length y) -> valid x y f t ->
    computes compute fuel x y l t = Some (map (fun '(i, j) => f (skipn i x) (skipn j y)) l).
Proof.
  intros H l fuel. induction l as [|[i j] l IH]; intros t L B V; [reflexivity|]. cbn [computes map]. destruct (B i j (or_introl eq_refl)).
  destruct (H fuel i j t) as (t' & -> & V'); try lia; [exact V|]. rewrite IH; [reflexivity|exact L| |exact V']. intros; apply B. right. assumption.
Qed.
Theorem C61_memoization {A} {EA : EqDec A} (x y : list A) (l : list (nat * nat)) : (forall i j, In (i, j) l -> i <= length x /\ j <= length y) ->
  let fuel := S (length x + length y) in
  computes lev_compute fuel x y l [] = Some (map (fun '(i, j) => lev (skipn i x) (skipn j y)) l) /\
  computes lcs_compute fuel x y l [] = Some (map (fun '(i, j) => lcsd (skipn i x) (skipn j y)) l) /\
  computes dam_compute fuel x y l [] = Some (map (fun '(i, j) => osa (skipn i x) (skipn j y)) l).
Proof.
  intros B. split; [|split]; apply computes_spec; try lia; try exact B; try apply valid_nil.
  - intros fuel. apply lev_memo.
  - intros fuel. apply lcs_memo.
  - intros fuel. apply dam_memo.
Qed.
(** The naive version of the third distance, which does call itself, is the un-memoized recursion. *)
Theorem C61_naive {A} {EA : EqDec A} (x y : list A) : damerau_levenshtein_distance_naive x y = damerau_levenshtein_distance x y.
Proof. rewrite damerau_eq. apply damerau_naive_eq. lia. Qed.
Example C61_example : let x := lit "abcab" in let y := lit "bacba" in
  (forall i j, In (i, j) [(2, 1); (0, 0); (5, 3)] -> i <= length x /\ j <= length y) /\ computes lev_compute 11 x y [(2, 1); (0, 0); (5, 3)] [] = Some [3; 4; 2].
Proof. split; [intros i j [[= <- <-]|[[= <- <-]|[[= <- <-]|[]]]]; cbn; lia|]. vm_compute. reflexivity. Qed.

Print Assumptions C56_levenshtein_distance.
Print Assumptions C57_levenshtein_metric.
Print Assumptions C58_lcs_distance.
Print Assumptions C58_lcs_metric.
Print Assumptions C59_damerau_refuted.
Print Assumptions C59_triangle_refuted.
Print Assumptions C59_damerau_partial.
Print Assumptions C59_semimetric_partial.
Print Assumptions C61_memoization.
Print Assumptions C61_naive.
