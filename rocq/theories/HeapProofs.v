(** Lemmas on heapq: the lists are permuted and the heap invariant holds. *)
From Verif Require Import Base Heap BaseProofs.

Section H.
  Context {E : Type}.
  Variable lt : E -> E -> bool.
  (** [le] is a total preorder, [lt] is between its strict part and itself. *)
  Variable le : E -> E -> Prop.
  Hypothesis le_refl : forall a, le a a.
  Hypothesis le_trans : forall a b c, le a b -> le b c -> le a c.
  Hypothesis lt_le : forall a b, lt a b = true -> le a b.
  Hypothesis nlt_le : forall a b, lt a b = false -> le b a.

  Lemma length_upd (d : list E) i x : length (upd d i x) = length d.
  Proof. revert i; induction d as [|y d IH]; intros [|i]; cbn; auto. Qed.
  Lemma nth_upd (d : list E) i x j : nth_error (upd d i x) j = if j =? i then (if i <? length d then Some x else None) else nth_error d j.
  Proof.
    revert i j; induction d as [|y d IH]; intros i j; [destruct j, i; cbn; try reflexivity; destruct (j =? i); reflexivity|].
    destruct i as [|i], j as [|j]; cbn [upd nth_error Nat.eqb length]; try reflexivity. rewrite IH. destruct (j =? i); reflexivity.
  Qed.
  Lemma nth_upd_same (d : list E) i x : i < length d -> nth_error (upd d i x) i = Some x.
  Proof. intros L. rewrite nth_upd, Nat.eqb_refl. destruct (Nat.ltb_spec i (length d)); [reflexivity|lia]. Qed.
  Lemma nth_upd_other (d : list E) i x j : j <> i -> nth_error (upd d i x) j = nth_error d j.
  Proof. intros N. rewrite nth_upd. destruct (Nat.eqb_spec j i); [contradiction|reflexivity]. Qed.
  Lemma nth_lt (d : list E) i a : nth_error d i = Some a -> i < length d.
  Proof. intros H. apply nth_error_Some. congruence. Qed.
  Lemma lt_nth (d : list E) i : i < length d -> exists a, nth_error d i = Some a.
  Proof. intros H. apply nth_error_Some in H. destruct (nth_error d i); [eauto|contradiction]. Qed.
  Lemma perm_upd (d : list E) i a x : nth_error d i = Some a -> Permutation (x :: d) (a :: upd d i x).
  Proof.
    revert i; induction d as [|y d IH]; intros [|i] H; cbn in *; try discriminate; [injection H as ->; apply perm_swap|].
    rewrite (perm_swap y x), (IH i H). apply perm_swap.
  Qed.
  Lemma perm_move (d : list E) i j b x : i < length d -> nth_error d j = Some b -> i <> j -> Permutation (upd (upd d i b) j x) (upd d i x).
  Proof.
    intros Li Hj N. destruct (lt_nth d i Li) as [a Hi]. pose proof (perm_upd d i a x Hi) as P1. pose proof (perm_upd d i a b Hi) as P2.
    assert (Hj' : nth_error (upd d i b) j = Some b) by (rewrite nth_upd_other; auto). pose proof (perm_upd _ j b x Hj') as P3.
    apply (Permutation_cons_inv (a := a)), (Permutation_cons_inv (a := b)). rewrite (perm_swap a b), <- P3, <- P1, (perm_swap x a), <- P2. apply perm_swap.
  Qed.
  Lemma upd_same (d : list E) i a : nth_error d i = Some a -> upd d i a = d.
  Proof. revert i; induction d as [|y d IH]; intros [|i] H; cbn in *; try discriminate; [congruence|]. f_equal. apply IH, H. Qed.

  (** positions *)
  Definition child (p j : nat) : Prop := j = 2 * p + 1 \/ j = 2 * p + 2.
  Inductive desc (s : nat) : nat -> Prop := desc_0 : desc s s | desc_S p j : desc s p -> child p j -> desc s j.
  Lemma desc_le s p : desc s p -> s <= p.
  Proof. induction 1 as [|p j _ IH [->| ->]]; lia. Qed.
  Lemma parent_child p : 0 < p -> child ((p - 1) / 2) p.
  Proof. intros H. pose proof (Nat.div_mod (p - 1) 2 ltac:(lia)) as D. pose proof (Nat.mod_upper_bound (p - 1) 2 ltac:(lia)). unfold child. lia. Qed.
  Lemma child_fun p q j : child p j -> child q j -> p = q.
  Proof. unfold child. lia. Qed.
  Lemma desc_parent s p : desc s p -> s < p -> desc s ((p - 1) / 2).
  Proof. intros D L. inversion D as [|q j D' C]; subst; [lia|]. assert (q = (p - 1) / 2) as <- by (apply (child_fun _ _ p C), parent_child; lia). exact D'. Qed.
  Lemma desc_zero p : desc 0 p.
  Proof.
    induction p as [p IH] using (well_founded_induction lt_wf). destruct p as [|p]; [constructor|]. pose proof (parent_child (S p) ltac:(lia)) as C.
    refine (desc_S 0 _ _ (IH _ _) C). unfold child in C. lia.
  Qed.

  (** heap from position [s] on: the parent is not above the child; [holed]: but for the position [pos] *)
  Definition heap_from (s : nat) (d : list E) : Prop := forall p j a b, s <= p -> child p j -> nth_error d p = Some a -> nth_error d j = Some b -> le a b.
  Definition holed (s pos : nat) (d : list E) : Prop :=
    (forall p j a b, s <= p -> child p j -> p <> pos -> j <> pos -> nth_error d p = Some a -> nth_error d j = Some b -> le a b) /\
    (s < pos -> forall p j a b, child p pos -> child pos j -> nth_error d p = Some a -> nth_error d j = Some b -> le a b).

  Lemma siftdown_spec x : forall fuel d s pos, pos <= fuel -> desc s pos -> pos < length d -> holed s pos d ->
    (forall j b, child pos j -> nth_error d j = Some b -> le x b) ->
    Permutation (siftdown_loop lt fuel d s pos x) (upd d pos x) /\ heap_from s (siftdown_loop lt fuel d s pos x).
  Proof.
    assert (STOP : forall d s pos, pos < length d -> holed s pos d -> (forall j b, child pos j -> nth_error d j = Some b -> le x b) ->
      (s < pos -> forall p a, child p pos -> nth_error d p = Some a -> le a x) -> (desc s pos) -> heap_from s (upd d pos x)).
    { intros d s pos L [H1 H2] K P DS p j a b Ls C Ha Hb. assert (p <> j) by (unfold child in C; lia). rewrite nth_upd in Ha, Hb. destruct (Nat.ltb_spec pos (length d)) as [_|]; [|lia].
      destruct (Nat.eqb_spec p pos) as [->|Np], (Nat.eqb_spec j pos) as [->|Nj]; [contradiction| | |].
      - injection Ha as <-. apply (K j b C Hb).
      - injection Hb as <-. apply (P ltac:(unfold child in C; lia) p a C Ha).
      - apply (H1 p j); assumption. }
    induction fuel as [|fuel IH]; intros d s pos F DS L H K; cbn [siftdown_loop].
    { split; [reflexivity|]. apply STOP; try assumption. lia. }
    destruct (Nat.ltb_spec s pos) as [Ls|Ls]; [|split; [reflexivity|]; apply STOP; try assumption; lia].
    set (pp := (pos - 1) / 2). assert (C : child pp pos) by (apply parent_child; lia). assert (Lpp : pp < pos) by (unfold child in C; lia).
    destruct (lt_nth d pp ltac:(lia)) as [parent Hp]. rewrite Hp. destruct (lt x parent) eqn:LT.
    - assert (Dpp : desc s pp) by (apply desc_parent; assumption). pose proof (desc_le _ _ Dpp) as Spp. destruct H as [H1 H2].
      destruct (IH (upd d pos parent) s pp) as [P1 P2]; [lia|exact Dpp|rewrite length_upd; lia| | |].
      + split.
        * intros p j a b Lp Cp Np Nj Ha Hb. assert (p <> j) by (unfold child in Cp; lia). rewrite nth_upd in Ha, Hb. destruct (Nat.ltb_spec pos (length d)) as [_|]; [|lia].
          destruct (Nat.eqb_spec p pos) as [->|Np'], (Nat.eqb_spec j pos) as [->|Nj']; [contradiction| | |].
          -- injection Ha as <-. apply (H2 Ls pp j parent b C Cp Hp Hb).
          -- exfalso. apply Np. apply (child_fun _ _ pos Cp C).
          -- apply (H1 p j); assumption.
        * intros Lspp p j a b Cp Cj Ha Hb. assert (Ps : s <= p). { pose proof (desc_le _ _ (desc_parent s pp Dpp Lspp)). rewrite (child_fun p ((pp - 1) / 2) pp Cp); [assumption|apply parent_child; lia]. }
          assert (p <> pos) by (unfold child in Cp; lia). rewrite nth_upd_other in Ha by assumption.
          assert (AP : le a parent) by (apply (H1 p pp); try assumption; unfold child in *; lia).
          rewrite nth_upd in Hb. destruct (Nat.eqb_spec j pos) as [->|Nj].
          -- destruct (Nat.ltb_spec pos (length d)) as [_|]; [|lia]. injection Hb as <-. exact AP.
          -- apply (le_trans _ parent); [exact AP|]. apply (H1 pp j); try assumption. lia.
      + intros j b Cj Hb. rewrite nth_upd in Hb. destruct (Nat.eqb_spec j pos) as [->|Nj].
        * destruct (Nat.ltb_spec pos (length d)) as [_|]; [|lia]. injection Hb as <-. apply lt_le, LT.
        * apply (le_trans _ parent); [apply lt_le, LT|]. apply (H1 pp j); try assumption. lia.
      + split; [|exact P2]. rewrite P1. apply perm_move; [exact L|exact Hp|lia].
    - split; [reflexivity|]. apply STOP; try assumption. intros _ p a Cp Ha. rewrite (child_fun p pp pos Cp C) in Ha. rewrite Hp in Ha. injection Ha as <-. apply nlt_le, LT.
  Qed.

  Lemma siftup_loop_spec s : forall fuel d pos, length d <= fuel + pos -> desc s pos -> pos < length d -> holed s pos d ->
    let '(d', pos') := siftup_loop lt fuel d pos in
    length d' = length d /\ desc s pos' /\ pos' < length d' /\ holed s pos' d' /\ length d' <= 2 * pos' + 1 /\ forall x, Permutation (upd d' pos' x) (upd d pos x).
  Proof.
    assert (STEP : forall d pos j b, desc s pos -> pos < length d -> holed s pos d -> child pos j -> nth_error d j = Some b ->
      (forall j' b', child pos j' -> nth_error d j' = Some b' -> le b b') ->
      desc s j /\ j < length (upd d pos b) /\ holed s j (upd d pos b) /\ forall x, Permutation (upd (upd d pos b) j x) (upd d pos x)).
    { intros d pos j b DS L [H1 H2] C Hb MIN. pose proof (desc_le _ _ DS) as Sp. assert (Ljp : pos < j) by (unfold child in C; lia). pose proof (nth_lt _ _ _ Hb) as Lj.
      split; [apply (desc_S s pos); assumption|]. split; [rewrite length_upd; exact Lj|]. split; [split|].
      - intros p i a c Lp Ci Np Ni Ha Hc. assert (p <> i) by (unfold child in Ci; lia). rewrite nth_upd in Ha, Hc. destruct (Nat.ltb_spec pos (length d)) as [_|]; [|lia].
        destruct (Nat.eqb_spec p pos) as [->|Np'], (Nat.eqb_spec i pos) as [->|Ni']; [contradiction| | |].
        + injection Ha as <-. apply (MIN i c Ci Hc).
        + injection Hc as <-. apply (H2 ltac:(unfold child in Ci; lia) p j a b Ci C Ha Hb).
        + apply (H1 p i); assumption.
      - intros _ p i a c Cp Ci Ha Hc. rewrite (child_fun p pos j Cp C) in Ha. rewrite nth_upd_same in Ha by exact L. injection Ha as <-.
        rewrite nth_upd_other in Hc by (unfold child in *; lia). apply (H1 j i); try assumption; unfold child in *; lia.
      - intros x. apply perm_move; [exact L|exact Hb|lia]. }
    induction fuel as [|fuel IH]; intros d pos F DS L H; cbn [siftup_loop]; [lia|].
    destruct (Nat.ltb_spec (2 * pos + 1) (length d)) as [Lc|Lc]; [|do 4 (split; [first [reflexivity|assumption]|]); split; [lia|reflexivity]].
    destruct (lt_nth d _ Lc) as [il Hl]. rewrite Hl. replace (2 * pos + 1 + 1) with (2 * pos + 2) by lia.
    assert (GO : forall j b, child pos j -> nth_error d j = Some b -> (forall j' b', child pos j' -> nth_error d j' = Some b' -> le b b') ->
      let '(d', pos') := siftup_loop lt fuel (upd d pos b) j in
      length d' = length d /\ desc s pos' /\ pos' < length d' /\ holed s pos' d' /\ length d' <= 2 * pos' + 1 /\ forall x, Permutation (upd d' pos' x) (upd d pos x)).
    { intros j b C Hb MIN. destruct (STEP d pos j b DS L H C Hb MIN) as (S1 & S2 & S3 & S4). specialize (IH (upd d pos b) j). destruct (siftup_loop lt fuel (upd d pos b) j) as [d' pos'].
      rewrite length_upd in *. destruct IH as (I1 & I2 & I3 & I4 & I5 & I6); [unfold child in C; lia|exact S1|exact S2|exact S3|].
      do 5 (split; [assumption|]). intros x. rewrite I6. apply S4. }
    destruct (nth_error d (2 * pos + 2)) as [ir|] eqn:Hr; [destruct (lt il ir) eqn:LT; cbn [negb]|].
    - apply GO; [left; reflexivity|exact Hl|]. intros j' b' [-> | ->] Hb'; [rewrite Hl in Hb'; injection Hb' as <-; apply le_refl|rewrite Hr in Hb'; injection Hb' as <-; apply lt_le, LT].
    - apply GO; [right; reflexivity|exact Hr|]. intros j' b' [-> | ->] Hb'; [rewrite Hl in Hb'; injection Hb' as <-; apply nlt_le, LT|rewrite Hr in Hb'; injection Hb' as <-; apply le_refl].
    - apply GO; [left; reflexivity|exact Hl|]. intros j' b' [-> | ->] Hb'; [rewrite Hl in Hb'; injection Hb' as <-; apply le_refl|congruence].
  Qed.

  Lemma siftup_spec d s : s < length d -> heap_from (S s) d -> Permutation (siftup lt d s) d /\ heap_from s (siftup lt d s).
  Proof.
    intros L H. unfold siftup. destruct (lt_nth d s L) as [x Hx]. rewrite Hx. pose proof (siftup_loop_spec s (length d) d s) as G.
    destruct (siftup_loop lt (length d) d s) as [d' p]. destruct G as (G1 & G2 & G3 & G4 & G5 & G6); [lia|constructor|exact L| |].
    - split; [|lia]. intros q j a b Lp C Np Nj. apply H; [lia|exact C].
    - unfold siftdown. rewrite nth_upd_same by exact G3. destruct (siftdown_spec x p (upd d' p x) s p) as [P1 P2].
      + reflexivity. + exact G2. + rewrite length_upd. exact G3.
      + destruct G4 as [H1 H2]. split.
        * intros q j a b Lq C Nq Nj. rewrite !nth_upd_other by assumption. apply (H1 q j); assumption.
        * intros Ls q j a b Cq Cj. rewrite !nth_upd_other by (unfold child in *; lia). apply (H2 Ls q j); assumption.
      + intros j b C Hb. apply nth_lt in Hb. rewrite length_upd in Hb. unfold child in C. lia.
      + split; [|exact P2]. rewrite P1. rewrite (upd_same _ p x) by (apply nth_upd_same, G3). rewrite G6. rewrite (upd_same _ _ _ Hx). reflexivity.
  Qed.

  Definition is_heap (d : list E) : Prop := heap_from 0 d.
  Lemma heapify_spec d : Permutation (heapify lt d) d /\ is_heap (heapify lt d).
  Proof.
    unfold heapify. assert (G : forall n d', n <= length d' -> heap_from n d' -> Permutation (fold_left (siftup lt) (rev (seq 0 n)) d') d' /\ is_heap (fold_left (siftup lt) (rev (seq 0 n)) d')).
    { induction n as [|n IH]; intros d' L H; [split; [reflexivity|exact H]|]. rewrite seq_S, rev_app_distr. cbn [rev app fold_left plus].
      destruct (siftup_spec d' n ltac:(lia) H) as [P1 P2]. destruct (IH (siftup lt d' n)) as [Q1 Q2]; [rewrite (Permutation_length P1); lia|exact P2|].
      split; [|exact Q2]. etransitivity; [exact Q1|exact P1]. }
    pose proof (Nat.div_mod (length d) 2 ltac:(lia)). pose proof (Nat.mod_upper_bound (length d) 2 ltac:(lia)).
    apply G; [lia|]. intros p j a b Lp C _ Hb. apply nth_lt in Hb. unfold child in C. lia.
  Qed.
  Lemma heappush_spec d x : is_heap d -> Permutation (heappush lt d x) (x :: d) /\ is_heap (heappush lt d x).
  Proof.
    intros H. unfold heappush, siftdown. rewrite nth_error_app2, Nat.sub_diag by reflexivity. cbn [nth_error].
    assert (Hn : nth_error (d ++ [x]) (length d) = Some x) by (rewrite nth_error_app2, Nat.sub_diag by reflexivity; reflexivity).
    destruct (siftdown_spec x (length d) (d ++ [x]) 0 (length d)) as [P1 P2].
    - reflexivity. - apply desc_zero. - rewrite app_length. cbn. lia.
    - assert (G : forall i a, i <> length d -> nth_error (d ++ [x]) i = Some a -> nth_error d i = Some a).
      { intros i a N Ha. pose proof (nth_lt _ _ _ Ha) as L. rewrite app_length in L. cbn in L. rewrite nth_error_app1 in Ha by lia. exact Ha. }
      split; [intros p j a b Lp C Np Nj Ha Hb; apply (H p j); auto|]. intros L p j a b Cp Cj Ha Hb. apply nth_lt in Hb. rewrite app_length in Hb. cbn in Hb. unfold child in *. lia.
    - intros j b C Hb. apply nth_lt in Hb. rewrite app_length in Hb. cbn in Hb. unfold child in *. lia.
    - split; [|exact P2]. rewrite P1, (upd_same _ _ _ Hn). symmetry. apply Permutation_cons_append.
  Qed.
  Lemma heap_root d r : is_heap d -> nth_error d 0 = Some r -> forall i a, nth_error d i = Some a -> le r a.
  Proof.
    intros H Hr i. induction i as [i IH] using (well_founded_induction lt_wf). intros a Ha. destruct i as [|i]; [rewrite Hr in Ha; injection Ha as <-; apply le_refl|].
    pose proof (parent_child (S i) ltac:(lia)) as C. set (p := (S i - 1) / 2) in *. assert (Lp : p < S i) by (unfold child in C; lia). pose proof (nth_lt _ _ _ Ha).
    destruct (lt_nth d p ltac:(lia)) as [b Hb]. apply (le_trans _ b); [apply (IH p Lp b Hb)|]. apply (H p (S i)); [lia|exact C|exact Hb|exact Ha].
  Qed.
  Lemma heappop_spec d : is_heap d -> d <> [] -> exists m d', heappop lt d = (d', Ok m) /\ Permutation d (m :: d') /\ is_heap d' /\ forall y, In y d -> le m y.
  Proof.
    intros H N. unfold heappop. destruct (rev d) as [|last r] eqn:R; [apply (f_equal (@rev E)) in R; rewrite rev_involutive in R; contradiction|].
    apply (f_equal (@rev E)) in R. rewrite rev_involutive in R. cbn [rev] in R. subst d. destruct (rev r) as [|x l] eqn:R'; cbn [app] in *.
    - exists last, []. split; [reflexivity|]. split; [reflexivity|]. split; [intros p [|j] a b _ C Ha; destruct p; discriminate|]. intros y [<-|[]]. apply le_refl.
    - destruct (siftup_spec (last :: l) 0) as [P1 P2]; [cbn; lia| |].
      + intros p j a b Lp C Ha Hb. destruct p as [|p]; [lia|]. destruct j as [|j]; [unfold child in C; lia|]. cbn [nth_error] in Ha, Hb. apply (H (S p) (S j)); [lia|exact C| |].
        * cbn. rewrite nth_error_app1; [exact Ha|apply nth_lt in Ha; exact Ha].
        * cbn. rewrite nth_error_app1; [exact Hb|apply nth_lt in Hb; exact Hb].
      + exists x, (siftup lt (last :: l) 0). split; [reflexivity|]. split; [rewrite P1; constructor; symmetry; apply Permutation_cons_append|]. split; [exact P2|].
        intros y Iy. apply In_nth_error in Iy. destruct Iy as [i Hi]. apply (heap_root (x :: l ++ [last]) x H eq_refl i y Hi).
  Qed.
End H.
