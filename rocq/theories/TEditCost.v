(** C131: the cost of the edit distances. *)
From Coq Require Import String.
From Coq Require Import Lia.
Open Scope string_scope. Open Scope nat_scope. Open Scope list_scope.
From Verif Require Import EditDistance EditCost EditCostSpec EditCostProofs Str Base BaseProofs.

(** With room for max(1, len(x) + len(y)) nested calls, [calls] finds the distance; it executes the body of compute at most once for each pair (i, j)
    of positions, and calls compute at most once plus [k] times per execution of the body. *)
Definition cheap {A} (k : nat) (compute : nat -> list A -> list A -> nat -> nat -> memo -> memoized) (distance : list A -> list A -> option nat)
    (calls : nat -> list A -> list A -> nat -> nat -> mstate -> option (nat * mstate)) (x y : list A) (fuel : nat) : Prop :=
  exists d t l, calls fuel x y 0 0 ([], []) = Some (d, (t, l)) /\ compute fuel x y 0 0 [] = Some (d, t) /\ distance x y = Some d /\
    NoDup (computed l) /\ (forall i j, In (i, j) (computed l) -> i <= length x /\ j <= length y) /\
    length (computed l) <= (length x + 1) * (length y + 1) /\ length l <= 1 + k * length (computed l).

Lemma cheap_intro {A} {EA : EqDec A} (x y : list A) k next compute distance calls fuel : stepping x y next k ->
  distance x y = option_map fst (compute (S (length x + length y)) x y 0 0 []) ->
  (forall fuel i j s, calls fuel x y i j s = gen next (ed_comb x y) fuel i j s) ->
  (forall fuel i j s, compute fuel x y i j (fst s) = forget (calls fuel x y i j s)) ->
  1 <= fuel -> length x + length y <= fuel -> cheap k compute distance calls x y fuel.
Proof.
  intros ST DE G E P L. destruct (gen_cost x y next k fuel ST P L) as (d & t & l & R & N & I & _ & B & _). exists d, t, l.
  split; [rewrite G; exact R|]. split; [specialize (E fuel 0 0 ([], [])); cbn [fst] in E; rewrite E, G, R; reflexivity|].
  split.
  { rewrite DE. specialize (E (S (length x + length y)) 0 0 ([], [])). cbn [fst] in E. rewrite E, G.
    destruct (gen_cost x y next k (Nat.max 1 (length x + length y)) ST) as (d' & t' & l' & R' & _); try lia.
    assert (LE : Nat.max 1 (length x + length y) <= fuel) by lia. pose proof (gen_mono next (ed_comb x y) _ fuel 0 0 ([], []) _ LE R') as R1. rewrite R in R1. injection R1 as <- <- <-.
    assert (LE' : Nat.max 1 (length x + length y) <= S (length x + length y)) by lia. rewrite (gen_mono next (ed_comb x y) _ _ 0 0 ([], []) _ LE' R'). reflexivity. }
  split; [exact N|]. split; [intros i j H; apply In_pairs; apply I; exact H|]. split; [|exact B].
  rewrite <- (length_pairs x y). apply NoDup_incl_length; assumption.
Qed.
Theorem C131_calls {A} {EA : EqDec A} (x y : list A) (fuel : nat) : 1 <= fuel -> length x + length y <= fuel ->
  cheap 3 lev_compute levenshtein_distance lev_calls x y fuel /\ cheap 2 lcs_compute lcs_distance lcs_calls x y fuel /\ cheap 4 dam_compute damerau_levenshtein_distance dam_calls x y fuel.
Proof.
  intros P L. split; [|split].
  - apply (cheap_intro x y 3 (lev_next x y)); try assumption; [apply lev_stepping|reflexivity|apply lev_gen|apply lev_erase].
  - apply (cheap_intro x y 2 (lcs_next x y)); try assumption; [apply lcs_stepping|reflexivity|apply lcs_gen|apply lcs_erase].
  - apply (cheap_intro x y 4 (dam_next x y)); try assumption; [apply dam_stepping|reflexivity|apply dam_gen|apply dam_erase].
Qed.
Print Assumptions C131_calls.

(** The bound on the executions is reached: on two words without common letter, the body is executed for every pair, except (len(x), len(y))
    which the second distance never needs. *)
Definition exhaustive {A} (calls : nat -> list A -> list A -> nat -> nat -> mstate -> option (nat * mstate)) (x y : list A) (fuel : nat) : Prop :=
  forall d t l, calls fuel x y 0 0 ([], []) = Some (d, (t, l)) ->
    (forall i j, i <= length x -> j <= length y -> i < length x \/ j < length y -> In (i, j) (computed l)) /\
    (length x + 1) * (length y + 1) <= 1 + length (computed l).
Lemma exhaustive_intro {A} {EA : EqDec A} (x y : list A) k next calls fuel : stepping x y next k ->
  (forall fuel i j s, calls fuel x y i j s = gen next (ed_comb x y) fuel i j s) ->
  no_common x y -> 1 <= length x -> 1 <= length y -> length x + length y <= fuel -> exhaustive calls x y fuel.
Proof.
  intros S G NC Px Py L d t l R. destruct (gen_cost x y next k fuel S) as (d' & t' & l' & R' & N & I & _ & B & H); try lia.
  rewrite G, R' in R. injection R as -> -> ->. specialize (H NC Px Py). split; [exact H|].
  rewrite <- (length_pairs x y). apply (NoDup_incl_length (l' := (length x, length y) :: computed l)); [apply NoDup_pairs|].
  intros [i j] Hp. apply In_pairs in Hp. destruct (Nat.eq_dec i (length x)) as [->|]; [destruct (Nat.eq_dec j (length y)) as [->|]|].
  - left. reflexivity.
  - right. apply H; lia.
  - right. apply H; lia.
Qed.
Theorem C131_exhaustive {A} {EA : EqDec A} (x y : list A) (fuel : nat) : no_common x y -> 1 <= length x -> 1 <= length y -> length x + length y <= fuel ->
  exhaustive lev_calls x y fuel /\ exhaustive lcs_calls x y fuel /\ exhaustive dam_calls x y fuel.
Proof.
  intros NC Px Py L. split; [|split].
  - apply (exhaustive_intro x y 3 (lev_next x y)); try assumption; [apply lev_stepping|apply lev_gen].
  - apply (exhaustive_intro x y 2 (lcs_next x y)); try assumption; [apply lcs_stepping|apply lcs_gen].
  - apply (exhaustive_intro x y 4 (dam_next x y)); try assumption; [apply dam_stepping|apply dam_gen].
Qed.
Print Assumptions C131_exhaustive.

(** The stack: with room for fewer than len(x) + len(y) nested calls, the three functions fail on any two non-empty words without common letter. *)
Theorem C131_stack {A} {EA : EqDec A} (x y : list A) (fuel : nat) : no_common x y -> 1 <= length x -> 1 <= length y ->
  (lev_compute fuel x y 0 0 [] = None <-> fuel < length x + length y) /\
  (lcs_compute fuel x y 0 0 [] = None <-> fuel < length x + length y) /\
  (dam_compute fuel x y 0 0 [] = None <-> fuel < length x + length y).
Proof.
  intros NC Px Py. assert (F : forall r, forget r = None <-> r = None) by (intros [[d s]|]; cbn; split; congruence).
  split; [|split].
  - pose proof (lev_erase x y fuel 0 0 ([], [])) as E. cbn [fst] in E. rewrite E, F, lev_gen. apply gen_stack with (k := 3); try assumption. apply lev_stepping.
  - pose proof (lcs_erase x y fuel 0 0 ([], [])) as E. cbn [fst] in E. rewrite E, F, lcs_gen. apply gen_stack with (k := 2); try assumption. apply lcs_stepping.
  - pose proof (dam_erase x y fuel 0 0 ([], [])) as E. cbn [fst] in E. rewrite E, F, dam_gen. apply gen_stack with (k := 4); try assumption. apply dam_stepping.
Qed.
Print Assumptions C131_stack.

(** Without memoization the number of calls is exponential: at least 3^n on two words of n letters without common letter. *)
Lemma naive_erase {A} {EA : EqDec A} fuel : forall x y : list A, damerau_naive fuel x y = option_map fst (damerau_naive_calls fuel x y).
Proof.
  induction fuel as [|fuel IH]; intros x y; [reflexivity|]. cbn [damerau_naive damerau_naive_calls]. destruct x as [|a x], y as [|b y]; try reflexivity.
  rewrite !IH. destruct (eqb a b); [destruct (damerau_naive_calls fuel x y) as [[]|]; reflexivity|].
  destruct (damerau_naive_calls fuel x (b :: y)) as [[]|]; [|reflexivity]. destruct (damerau_naive_calls fuel (a :: x) y) as [[]|]; [|reflexivity].
  destruct (damerau_naive_calls fuel x y) as [[]|]; [|reflexivity]. cbn [option_map fst]. destruct x as [|a' x], y as [|b' y]; try reflexivity.
  destruct (eqb a b' && eqb a' b); [|reflexivity]. rewrite IH. destruct (damerau_naive_calls fuel x y) as [[]|]; reflexivity.
Qed.
Lemma naive_many {A} {EA : EqDec A} fuel : forall (x y : list A) d c, no_common x y -> damerau_naive_calls fuel x y = Some (d, c) ->
  3 ^ Nat.min (length x) (length y) <= c.
Proof.
  induction fuel as [|fuel IH]; intros x y d c NC E; [discriminate|]. cbn [damerau_naive_calls] in E. destruct x as [|a x], y as [|b y]; try (injection E as <- <-; cbn; lia).
  assert (N1 : no_common x (b :: y)) by (intros e H1 H2; apply (NC e); [right|]; assumption).
  assert (N2 : no_common (a :: x) y) by (intros e H1 H2; apply (NC e); [|right]; assumption).
  assert (N3 : no_common x y) by (intros e H1 H2; apply (NC e); right; assumption).
  assert (AB : eqb a b = false) by (apply eqb_neq; intros ->; apply (NC b); left; reflexivity). rewrite AB in E.
  destruct (damerau_naive_calls fuel x (b :: y)) as [[d1 c1]|] eqn:E1; [|discriminate]. destruct (damerau_naive_calls fuel (a :: x) y) as [[d2 c2]|] eqn:E2; [|discriminate].
  destruct (damerau_naive_calls fuel x y) as [[d3 c3]|] eqn:E3; [|discriminate].
  apply IH in E1; [|exact N1]. apply IH in E2; [|exact N2]. apply IH in E3; [|exact N3]. cbn [length] in *.
  assert (C : c1 + c2 + c3 <= c).
  { destruct x as [|a' x], y as [|b' y]; try (injection E as <- <-; lia).
    destruct (eqb a b' && eqb a' b); [|injection E as <- <-; lia]. destruct (damerau_naive_calls fuel x y) as [[d4 c4]|]; [|discriminate]. injection E as <- <-. lia. }
  change (Nat.min (S (length x)) (S (length y))) with (S (Nat.min (length x) (length y))). rewrite Nat.pow_succ_r'.
  assert (3 ^ Nat.min (length x) (length y) <= 3 ^ Nat.min (length x) (S (length y))) by (apply Nat.pow_le_mono_r; lia).
  assert (3 ^ Nat.min (length x) (length y) <= 3 ^ Nat.min (S (length x)) (length y)) by (apply Nat.pow_le_mono_r; lia). lia.
Qed.
Theorem C131_naive {A} {EA : EqDec A} (x y : list A) : no_common x y ->
  exists d c, damerau_naive_calls (S (length x + length y)) x y = Some (d, c) /\ damerau_levenshtein_distance_naive x y = Some d /\
    3 ^ Nat.min (length x) (length y) <= c.
Proof.
  intros NC. pose proof (naive_erase (S (length x + length y)) x y) as E. unfold damerau_levenshtein_distance_naive. rewrite E.
  destruct (damerau_naive_calls (S (length x + length y)) x y) as [[d c]|] eqn:R.
  - exists d, c. split; [reflexivity|]. split; [reflexivity|]. exact (naive_many _ x y d c NC R).
  - exfalso. rewrite EditProofs.damerau_naive_eq in E by lia. discriminate.
Qed.
Print Assumptions C131_naive.
(** On two equal words of n letters it calls itself n times. *)
Theorem C131_equal {A} {EA : EqDec A} (x : list A) (fuel : nat) : length x < fuel -> damerau_naive_calls fuel x x = Some (0, length x + 1).
Proof.
  revert fuel. induction x as [|a x IH]; intros fuel L; (destruct fuel as [|fuel]; [cbn [length] in L; lia|]); [reflexivity|].
  cbn [damerau_naive_calls]. cbn [length] in L. rewrite eqb_refl, IH by lia. cbn [length]. f_equal. 
Qed.
Print Assumptions C131_equal.

(** Whatever the letters: with room for at most min(len(x), len(y)) nested calls, the four recursive functions fail. *)
Lemma memo_deep {A} {EA : EqDec A} (x y : list A) fuel : forall i j t, fuel <= Nat.min (length x - i) (length y - j) -> (forall i' j', i <= i' -> dget t (i', j') = None) ->
  lev_compute fuel x y i j t = None /\ lcs_compute fuel x y i j t = None /\ dam_compute fuel x y i j t = None.
Proof.
  induction fuel as [|fuel IH]; intros i j t L F; [repeat split; reflexivity|]. cbn [lev_compute lcs_compute dam_compute].
  rewrite (F i j (Nat.le_refl i)). rewrite (proj2 (Nat.ltb_lt j (length y))) by lia. rewrite (proj2 (Nat.ltb_lt i (length x))) by lia. cbn [negb].
  assert (F' : forall i' j', i + 1 <= i' -> dget t (i', j') = None) by (intros; apply F; lia).
  destruct (same x y i j).
  - destruct (IH (i + 1) (j + 1) t) as (-> & -> & ->); [lia|exact F'|]. repeat split; reflexivity.
  - destruct (IH (i + 1) j t) as (-> & -> & ->); [lia|exact F'|]. repeat split; reflexivity.
Qed.
Lemma naive_deep {A} {EA : EqDec A} fuel : forall x y : list A, fuel <= Nat.min (length x) (length y) -> damerau_naive fuel x y = None.
Proof.
  induction fuel as [|fuel IH]; intros x y L; [reflexivity|]. destruct x as [|a x], y as [|b y]; cbn [length] in L; try lia. cbn [damerau_naive].
  rewrite (IH x y) by lia. destruct (eqb a b); [reflexivity|]. rewrite (IH x (b :: y)) by (cbn [length]; lia). reflexivity.
Qed.
Theorem C131_stack_any {A} {EA : EqDec A} (x y : list A) (fuel : nat) : fuel <= Nat.min (length x) (length y) ->
  lev_compute fuel x y 0 0 [] = None /\ lcs_compute fuel x y 0 0 [] = None /\ dam_compute fuel x y 0 0 [] = None /\ damerau_naive fuel x y = None.
Proof.
  intros L. destruct (memo_deep x y fuel 0 0 []) as (E1 & E2 & E3); [lia|reflexivity|]. split; [exact E1|]. split; [exact E2|]. split; [exact E3|].
  apply naive_deep. exact L.
Qed.
Print Assumptions C131_stack_any.
(** This is exact for two equal words. *)
Lemma equal_shallow {A} {EA : EqDec A} (x : list A) fuel : forall i t, length x - i < fuel -> (forall i' j', i <= i' -> dget t (i', j') = None) ->
  lev_compute fuel x x i i t <> None /\ lcs_compute fuel x x i i t <> None /\ dam_compute fuel x x i i t <> None.
Proof.
  induction fuel as [|fuel IH]; intros i t L F; [lia|]. cbn [lev_compute lcs_compute dam_compute]. rewrite (F i i (Nat.le_refl i)).
  destruct (Nat.ltb_spec i (length x)) as [B|B]; cbn [negb]; [|repeat split; discriminate].
  assert (S : same x x i i = true).
  { unfold same. destruct (nth_error x i) as [a|] eqn:E; [apply eqb_refl|]. apply nth_error_None in E. lia. }
  rewrite S. destruct (IH (i + 1) t) as (H1 & H2 & H3); [lia|intros; apply F; lia|].
  destruct (lev_compute fuel x x (i + 1) (i + 1) t) as [[]|]; [|congruence]. destruct (lcs_compute fuel x x (i + 1) (i + 1) t) as [[]|]; [|congruence].
  destruct (dam_compute fuel x x (i + 1) (i + 1) t) as [[]|]; [|congruence]. repeat split; discriminate.
Qed.
Theorem C131_stack_equal {A} {EA : EqDec A} (x : list A) (fuel : nat) :
  (lev_compute fuel x x 0 0 [] = None <-> fuel <= length x) /\ (lcs_compute fuel x x 0 0 [] = None <-> fuel <= length x) /\
  (dam_compute fuel x x 0 0 [] = None <-> fuel <= length x) /\ (damerau_naive fuel x x = None <-> fuel <= length x).
Proof.
  destruct (Nat.le_gt_cases fuel (length x)) as [L|L].
  - destruct (C131_stack_any x x fuel) as (E1 & E2 & E3 & E4); [lia|]. tauto.
  - destruct (equal_shallow x fuel 0 []) as (H1 & H2 & H3); [lia|reflexivity|].
    assert (H4 : damerau_naive fuel x x <> None) by (rewrite naive_erase, C131_equal by lia; discriminate).
    repeat split; intros X; try contradiction; lia.
Qed.
Print Assumptions C131_stack_equal.

Example C131_nontrivial : let x := lit "abca" in let y := lit "xyz" in no_common x y /\ 1 <= length x /\ 1 <= length y /\
  option_map fst (lev_calls 7 x y 0 0 ([], [])) = Some 4 /\ lev_compute 6 x y 0 0 [] = None /\ lcs_compute 6 x y 0 0 [] = None /\ dam_compute 6 x y 0 0 [] = None /\
  option_map (fun r => (length (computed (snd (snd r))), length (snd (snd r)))) (lev_calls 7 x y 0 0 ([], [])) = Some (20, 37) /\
  option_map (fun r => (length (computed (snd (snd r))), length (snd (snd r)))) (lcs_calls 7 x y 0 0 ([], [])) = Some (19, 25) /\
  damerau_naive_calls 8 x y = Some (4, 193).
Proof.
  split; [|split; [cbn; lia|split; [cbn; lia|]]].
  - intros a H1 H2. cbn in H1, H2. repeat destruct H1 as [<-|H1]; repeat (destruct H2 as [F|H2]; [discriminate F|]); contradiction.
  - repeat split; vm_compute; reflexivity.
Qed.

Example C131_stack_any_nontrivial : let x := lit "abcab" in let y := lit "acbb" in lev_compute 4 x y 0 0 [] = None /\ damerau_naive 4 x y = None /\ lev_compute 6 x x 0 0 [] <> None.
Proof. cbv zeta. repeat split; vm_compute; (reflexivity || discriminate). Qed.
