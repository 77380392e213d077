(** Theorem C88: the three edit distances compared, and their invariances. *)
From Coq Require Import String.
From Verif Require Import Base BaseProofs Str SearchSpec EditDistance EditSpec EditProofs.
Open Scope string_scope. Open Scope nat_scope. Open Scope list_scope.

Section L.
  Context {A : Type} {EA : EqDec A}.
  Implicit Types x y z : list A.
  Lemma al_weaken cs cw cs' cw' n x y : (cs = true -> cs' = true) -> (cw = true -> cw' = true) -> al cs cw n x y -> al cs' cw' n x y.
  Proof. intros H1 H2. induction 1; [constructor| | | | |apply al_swap; auto]; constructor; auto. Qed.
  Lemma al_length cs cw n x y : al cs cw n x y -> length x <= length y + n /\ length y <= length x + n.
  Proof. induction 1; cbn [length]; lia. Qed.
  Lemma al_no_subst n x y : al true false n x y -> exists m, m <= 2 * n /\ al false false m x y.
  Proof.
    induction 1 as [|n a x y H (m & L & K)|n a b x y C H (m & L & K)|n b x y H (m & L & K)|n a x y H (m & L & K)|n a b x y C H IH].
    - exists 0. split; [lia|constructor].
    - exists m. split; [lia|constructor; exact K].
    - exists (S (S m)). split; [lia|]. apply al_del, al_ins. exact K.
    - exists (S m). split; [lia|constructor; exact K].
    - exists (S m). split; [lia|constructor; exact K].
    - discriminate.
  Qed.
  Lemma al_no_swap n x y : al true true n x y -> exists m, m <= 2 * n /\ al true false m x y.
  Proof.
    induction 1 as [|n a x y H (m & L & K)|n a b x y C H (m & L & K)|n b x y H (m & L & K)|n a x y H (m & L & K)|n a b x y C H (m & L & K)].
    - exists 0. split; [lia|constructor].
    - exists m. split; [lia|constructor; exact K].
    - exists (S m). split; [lia|constructor; [reflexivity|exact K]].
    - exists (S m). split; [lia|constructor; exact K].
    - exists (S m). split; [lia|constructor; exact K].
    - exists (S (S m)). split; [lia|]. constructor; [reflexivity|]. constructor; [reflexivity|exact K].
  Qed.
  Lemma al_max x : forall y, exists m, m <= Nat.max (length x) (length y) /\ al true false m x y.
  Proof.
    induction x as [|a x IH]; intros y; [exists (length y); split; [cbn; lia|apply al_nil_l]|]. destruct y as [|b y]; [exists (length (a :: x)); split; [cbn; lia|apply al_nil_r]|].
    destruct (IH y) as (m & L & K). exists (S m). split; [cbn; lia|constructor; [reflexivity|exact K]].
  Qed.
  Lemma al_all x y : al false false (length x + length y) x y.
  Proof. induction x as [|a x IH]; [apply al_nil_l|]. cbn. apply al_del. exact IH. Qed.
  Lemma al_cat cs cw n m x y x' y' : al cs cw n x y -> al cs cw m x' y' -> al cs cw (n + m) (x ++ x') (y ++ y').
  Proof. intros H K. induction H; cbn; [exact K| | | | |apply al_swap; auto]; constructor; auto. Qed.
  Lemma al_rev cs cw n x y : al cs cw n x y -> al cs cw n (rev x) (rev y).
  Proof.
    induction 1 as [|n a x y H IH|n a b x y C H IH|n b x y H IH|n a x y H IH|n a b x y C H IH]; cbn [rev].
    - constructor.
    - rewrite <- (Nat.add_0_r n). apply al_cat; [exact IH|apply al_refl].
    - rewrite <- (Nat.add_1_r n). apply al_cat; [exact IH|]. constructor; [exact C|constructor].
    - rewrite <- (Nat.add_1_r n), <- (app_nil_r (rev x)). apply al_cat; [exact IH|]. repeat constructor.
    - rewrite <- (Nat.add_1_r n), <- (app_nil_r (rev y)). apply al_cat; [exact IH|]. repeat constructor.
    - rewrite <- (Nat.add_1_r n), <- !app_assoc. apply al_cat; [exact IH|]. cbn. apply al_swap; [exact C|constructor].
  Qed.

  (** f computes the least alignments *)
  Definition least_al cs cw (f : list A -> list A -> nat) : Prop := forall x y, al cs cw (f x y) x y /\ forall n, al cs cw n x y -> f x y <= n.
  Lemma lev_least_al : least_al true false lev.
  Proof. intros x y. split; [apply lev_al|]. intros n. apply (lev_least _ x y n (le_n _)). Qed.
  Lemma lcsd_least_al : least_al false false lcsd.
  Proof. intros x y. split; [apply lcsd_al|]. intros n. apply (lcsd_least _ x y n (le_n _)). Qed.
  Lemma osa_least_al : least_al true true osa.
  Proof. intros x y. split; [apply (osa_al _ x y (le_n _))|]. intros n. apply (osa_least _ x y n (le_n _)). Qed.

  Lemma rev_eq cs cw f x y : least_al cs cw f -> f (rev x) (rev y) = f x y.
  Proof.
    intros H. assert (G : forall x y, f (rev x) (rev y) <= f x y). { intros u v. apply H, al_rev, H. }
    pose proof (G x y). pose proof (G (rev x) (rev y)) as K. rewrite !rev_involutive in K. lia.
  Qed.
  Lemma head_eq cs cw f a x y : least_al cs cw f -> f (a :: x) (a :: y) = f x y.
  Proof.
    intros H. assert (f (a :: x) (a :: y) <= f x y) by (apply H; constructor; apply H).
    destruct (al_head cs cw (f (a :: x) (a :: y)) a x y) as (m & L & K); [apply H|]. pose proof (proj2 (H x y) m K). lia.
  Qed.
  Lemma left_eq cs cw f l x y : least_al cs cw f -> f (l ++ x) (l ++ y) = f x y.
  Proof. intros H. induction l as [|a l IH]; [reflexivity|]. cbn. rewrite (head_eq cs cw f a _ _ H). exact IH. Qed.
  Lemma context_eq cs cw f l x y r : least_al cs cw f -> f (l ++ x ++ r) (l ++ y ++ r) = f x y.
  Proof. intros H. rewrite (left_eq cs cw f l _ _ H), <- (rev_eq cs cw f _ _ H), !rev_app_distr, (left_eq cs cw f _ _ _ H). apply (rev_eq cs cw f _ _ H). Qed.
  Lemma cat_le cs cw f x y x' y' : least_al cs cw f -> f (x ++ x') (y ++ y') <= f x y + f x' y'.
  Proof. intros H. apply H, al_cat; apply H. Qed.
End L.

(** C88: damerau <= levenshtein <= lcs, each within twice the previous one, with the bounds given by the lengths. *)
Theorem C88_comparison {A} {EA : EqDec A} (x y : list A) : exists damerau levenshtein lcs,
  damerau_levenshtein_distance x y = Some damerau /\ levenshtein_distance x y = Some levenshtein /\ lcs_distance x y = Some lcs /\
  damerau <= levenshtein <= 2 * damerau /\ levenshtein <= lcs <= 2 * levenshtein /\
  length x <= length y + damerau /\ length y <= length x + damerau /\
  levenshtein <= Nat.max (length x) (length y) /\ lcs <= length x + length y /\ Nat.even lcs = Nat.even (length x + length y).
Proof.
  exists (osa x y), (lev x y), (lcsd x y). split; [apply damerau_eq|]. split; [apply levenshtein_eq|]. split; [apply lcs_eq|].
  destruct (lev_least_al x y) as [L1 L2]. destruct (lcsd_least_al x y) as [C1 C2]. destruct (osa_least_al x y) as [O1 O2].
  destruct (al_no_subst _ _ _ L1) as (c & Lc & Kc). destruct (al_no_swap _ _ _ O1) as (s & Ls & Ks). destruct (al_max x y) as (m & Lm & Km).
  pose proof (C2 _ Kc). pose proof (L2 _ Ks). pose proof (L2 _ Km). pose proof (C2 _ (al_all x y)). pose proof (al_length _ _ _ _ _ O1).
  assert (lev x y <= lcsd x y) by (apply L2; apply (al_weaken false false); [discriminate|discriminate|exact C1]).
  assert (osa x y <= lev x y) by (apply O2; apply (al_weaken true false); [auto|discriminate|exact L1]).
  repeat split; try lia. destruct (al_common _ _ _ C1) as (w & _ & _ & E). rewrite <- E, Nat.even_add, Nat.even_mul. cbn. destruct (Nat.even (lcsd x y)); reflexivity.
Qed.

(** C88: a common prefix, a common suffix, the direction of reading do not count; a concatenation costs at most the sum. *)
Theorem C88_invariance {A} {EA : EqDec A} (distance : list A -> list A -> option nat) :
  distance = damerau_levenshtein_distance \/ distance = levenshtein_distance \/ distance = lcs_distance ->
  (forall l x y r, distance (l ++ x ++ r) (l ++ y ++ r) = distance x y) /\
  (forall x y, distance (rev x) (rev y) = distance x y) /\
  (forall x y x' y', exists d d' d2, distance x y = Some d /\ distance x' y' = Some d' /\ distance (x ++ x') (y ++ y') = Some d2 /\ d2 <= d + d').
Proof.
  assert (G : forall cs cw f, least_al cs cw f -> (forall x y, distance x y = Some (f x y)) ->
    (forall l x y r, distance (l ++ x ++ r) (l ++ y ++ r) = distance x y) /\
    (forall x y, distance (rev x) (rev y) = distance x y) /\
    (forall x y x' y', exists d d' d2, distance x y = Some d /\ distance x' y' = Some d' /\ distance (x ++ x') (y ++ y') = Some d2 /\ d2 <= d + d')).
  { intros cs cw f H E. split; [intros; rewrite !E; f_equal; apply (context_eq cs cw f), H|]. split; [intros; rewrite !E; f_equal; apply (rev_eq cs cw f), H|].
    intros x y x' y'. exists (f x y), (f x' y'), (f (x ++ x') (y ++ y')). rewrite !E. repeat split. apply (cat_le cs cw f), H. }
  intros [-> | [-> | ->]].
  - apply (G _ _ osa osa_least_al damerau_eq).
  - apply (G _ _ lev lev_least_al levenshtein_eq).
  - apply (G _ _ lcsd lcsd_least_al lcs_eq).
Qed.

(** the three distances may differ *)
Example C88_example : let x := lit "abcd" in let y := lit "bace" in
  damerau_levenshtein_distance x y = Some 2 /\ levenshtein_distance x y = Some 3 /\ lcs_distance x y = Some 4 /\
  levenshtein_distance (lit "xxabcdyy") (lit "xxbaceyy") = Some 3.
Proof. repeat split; vm_compute; reflexivity. Qed.
Print Assumptions C88_comparison.
Print Assumptions C88_invariance.
