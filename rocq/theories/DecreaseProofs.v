(** heapify after the decrease of one item of a heap: the positions after this item are left as they are. *)
From Verif Require Import Base Heap HeapProofs BaseProofs.

Section D.
  Context {E : Type}.
  Variable lt : E -> E -> bool.
  Hypothesis lt_trans : forall a b c, lt a b = true -> lt b c = true -> lt a c = true.
  Hypothesis lt_asym : forall a b, lt a b = true -> lt b a = false.

  Lemma upd_upd (d : list E) i x y : upd (upd d i x) i y = upd d i y.
  Proof. revert i; induction d as [|z d IH]; intros [|i]; cbn; try reflexivity. f_equal. apply IH. Qed.
  Lemma upd_comm (d : list E) i j x y : i <> j -> upd (upd d i x) j y = upd (upd d j y) i x.
  Proof. revert i j; induction d as [|z d IH]; intros [|i] [|j] N; cbn; try reflexivity; [congruence|]. f_equal. apply IH. congruence. Qed.
  Lemma parent_lt p : 0 < p -> (p - 1) / 2 < p.
  Proof. intros H. pose proof (parent_child p H) as C. unfold child in C. lia. Qed.
  Lemma parent_of p c : child p c -> (c - 1) / 2 = p.
  Proof. intros C. apply (child_fun _ _ c); [apply parent_child; unfold child in C; lia|exact C]. Qed.
  Lemma desc_trans a b c : desc a b -> desc b c -> desc a c.
  Proof. intros H1 H2. induction H2 as [|p j _ IH C]; [exact H1|]. apply (desc_S _ p); assumption. Qed.
  Lemma desc_first a c : desc a c -> a <> c -> exists b, child a b /\ desc b c.
  Proof.
    induction 1 as [|p j D IH C]; intros N; [congruence|]. destruct (Nat.eq_dec a p) as [->|Na]; [exists j; split; [exact C|constructor]|].
    destruct (IH Na) as (b & C1 & D1). exists b. split; [exact C1|]. apply (desc_S _ p); assumption.
  Qed.
  (** two ancestors of the same position *)
  Lemma desc_total a b c : desc a c -> desc b c -> desc a b \/ desc b a.
  Proof.
    induction 1 as [|p j D IH C]; intros H; [right; exact H|]. inversion H as [|q ? D' C']; subst; [left; apply (desc_S _ p); assumption|].
    rewrite (child_fun q p j C' C) in D'. apply IH, D'.
  Qed.

  Lemma sd_hole fuel d s pos x y : siftdown_loop lt fuel (upd d pos y) s pos x = siftdown_loop lt fuel d s pos x.
  Proof.
    destruct fuel as [|fuel]; cbn [siftdown_loop]; [apply upd_upd|]. destruct (Nat.ltb_spec s pos) as [L|L]; [|apply upd_upd].
    rewrite nth_upd_other by (pose proof (parent_lt pos); lia). destruct (nth_error d ((pos - 1) / 2)) as [p|] eqn:Hp; [|apply nth_error_None in Hp].
    - rewrite !upd_upd. reflexivity.
    - (* outside of the list *) clear -Hp L. assert (G : forall (d : list E) i y, length d <= i -> upd d i y = d).
      { intros d' i y'. revert i. induction d' as [|z d' IH]; intros [|i] H; cbn in *; try reflexivity; [lia|]. f_equal. apply IH. lia. }
      apply G. pose proof (parent_lt pos). lia.
  Qed.
  Lemma sd_fuel : forall f1 f2 d s pos x, pos <= f1 -> pos <= f2 -> siftdown_loop lt f1 d s pos x = siftdown_loop lt f2 d s pos x.
  Proof.
    induction f1 as [|f1 IH]; intros [|f2] d s pos x H1 H2; cbn [siftdown_loop]; try reflexivity.
    - destruct (Nat.ltb_spec s pos); [lia|reflexivity].
    - destruct (Nat.ltb_spec s pos); [lia|reflexivity].
    - destruct (Nat.ltb_spec s pos) as [L|L]; [|reflexivity]. destruct (nth_error d ((pos - 1) / 2)) as [p|]; [|reflexivity]. destruct (lt x p); [|reflexivity].
      pose proof (parent_lt pos). apply IH; lia.
  Qed.

  (** the loop of _siftup goes down, and _siftdown comes back up to [pos] *)
  Lemma su_sd : forall fuel d pos s x, s <= pos -> pos < length d ->
    (forall j b, desc pos j -> j <> pos -> nth_error d j = Some b -> lt x b = true) ->
    let '(d', p') := siftup_loop lt fuel d pos in
    length d' = length d /\ p' < length d /\ forall F, p' <= F -> siftdown_loop lt F d' s p' x = siftdown_loop lt pos d s pos x.
  Proof.
    induction fuel as [|fuel IH]; intros d pos s x Ls L H; cbn [siftup_loop]; [split; [reflexivity|]; split; [exact L|]; intros F HF; apply sd_fuel; lia|].
    destruct (Nat.ltb_spec (2 * pos + 1) (length d)) as [Lc|Lc]; [|split; [reflexivity|]; split; [exact L|]; intros F HF; apply sd_fuel; lia].
    assert (GO : forall c b, child pos c -> nth_error d c = Some b -> let '(d', p') := siftup_loop lt fuel (upd d pos b) c in
      length d' = length d /\ p' < length d /\ forall F, p' <= F -> siftdown_loop lt F d' s p' x = siftdown_loop lt pos d s pos x).
    { intros c b C Hb. pose proof (nth_lt _ _ _ Hb) as Lcd. assert (Lpc : pos < c) by (unfold child in C; lia). specialize (IH (upd d pos b) c s x). destruct (siftup_loop lt fuel (upd d pos b) c) as [d' p'].
      rewrite length_upd in IH. destruct IH as (I1 & I2 & I3); [lia|exact Lcd| |split; [exact I1|]; split; [exact I2|]].
      - intros j b' Dj Nj Hj. pose proof (desc_le _ _ Dj). rewrite nth_upd_other in Hj by lia. apply (H j b'); [apply (desc_trans _ c); [apply (desc_S _ pos); [constructor|exact C]|exact Dj]|lia|exact Hj].
      - intros F HF. rewrite (I3 F HF). rewrite (sd_fuel c (S c)) by lia. cbn [siftdown_loop]. destruct (Nat.ltb_spec s c) as [_|]; [|lia]. rewrite (parent_of pos c C), nth_upd_same by exact L.
        rewrite (H c b); [|apply (desc_S _ pos); [constructor|exact C]|lia|exact Hb]. rewrite (upd_same _ c b) by (rewrite nth_upd_other by lia; exact Hb). rewrite sd_hole. apply sd_fuel; lia. }
    destruct (lt_nth d _ Lc) as [il Hl]. rewrite Hl. replace (2 * pos + 1 + 1) with (2 * pos + 2) by lia.
    destruct (nth_error d (2 * pos + 2)) as [ir|] eqn:Hr; [destruct (lt il ir); cbn [negb]|]; apply GO; unfold child; auto.
  Qed.

  Lemma siftup_id d s x : nth_error d s = Some x -> (forall j b, desc s j -> j <> s -> nth_error d j = Some b -> lt x b = true) -> siftup lt d s = d.
  Proof.
    intros Hx H. pose proof (nth_lt _ _ _ Hx) as L. unfold siftup. rewrite Hx. pose proof (su_sd (length d) d s s x (le_n _) L H) as G. destruct (siftup_loop lt (length d) d s) as [d' p'].
    destruct G as (G1 & G2 & G3). unfold siftdown. rewrite nth_upd_same by lia. rewrite sd_hole, G3 by lia.
    transitivity (upd d s x); [|apply upd_same, Hx]. destruct s; [reflexivity|]. cbn [siftdown_loop]. rewrite Nat.ltb_irrefl. reflexivity.
  Qed.
  Lemma siftup_swap d s c x y : nth_error d s = Some y -> child s c -> nth_error d c = Some x -> lt x y = true ->
    (forall j b, child s j -> j <> c -> nth_error d j = Some b -> lt x b = true) ->
    (forall j b, desc c j -> j <> c -> nth_error d j = Some b -> lt y b = true) -> siftup lt d s = upd (upd d s x) c y.
  Proof.
    intros Hy C Hx XY S1 S2. pose proof (nth_lt _ _ _ Hy) as L. pose proof (nth_lt _ _ _ Hx) as Lc. assert (Lsc : s < c) by (unfold child in C; lia). unfold siftup. rewrite Hy.
    assert (EL : exists n, length d = S n) by (destruct (length d); [lia|eauto]). destruct EL as [n EL].
    assert (F : siftup_loop lt (length d) d s = siftup_loop lt n (upd d s x) c).
    { rewrite EL. cbn [siftup_loop]. destruct (Nat.ltb_spec (2 * s + 1) (length d)) as [L1|L1]; [|unfold child in C; lia]. destruct (lt_nth d _ L1) as [il Hl]. rewrite Hl. replace (2 * s + 1 + 1) with (2 * s + 2) by lia.
      destruct C as [-> | ->].
      - assert (il = x) as -> by congruence. destruct (nth_error d (2 * s + 2)) as [ir|] eqn:Hr; [|reflexivity]. rewrite (S1 (2 * s + 2) ir); [reflexivity|right; reflexivity|lia|exact Hr].
      - rewrite Hx. rewrite (lt_asym x il); [reflexivity|]. apply (S1 (2 * s + 1)); [left; reflexivity|lia|exact Hl]. }
    rewrite F. pose proof (su_sd n (upd d s x) c s y) as G. destruct (siftup_loop lt n (upd d s x) c) as [d' p']. rewrite length_upd in G. destruct G as (G1 & G2 & G3); [lia|exact Lc| |].
    - intros j b Dj Nj Hj. pose proof (desc_le _ _ Dj). rewrite nth_upd_other in Hj by lia. apply (S2 j b Dj Nj Hj).
    - unfold siftdown. rewrite nth_upd_same by lia. rewrite sd_hole, G3 by lia. rewrite (sd_fuel c (S c)) by lia. cbn [siftdown_loop]. destruct (Nat.ltb_spec s c) as [_|]; [|lia].
      rewrite (parent_of s c C), nth_upd_same by exact L. rewrite (lt_asym x y XY). reflexivity.
  Qed.

  (** [strict D]: each item is below its descendants *)
  Definition strict (d : list E) : Prop := forall p j a b, desc p j -> p <> j -> nth_error d p = Some a -> nth_error d j = Some b -> lt a b = true.

  Lemma heapify_decrease D i a x : strict D -> nth_error D i = Some a -> (forall b, lt a b = true -> lt x b = true) ->
    (forall j b, j <> i -> nth_error D j = Some b -> lt b x = false -> lt x b = true) ->
    forall j, i < j -> nth_error (heapify lt (upd D i x)) j = nth_error D j.
  Proof.
    intros ST Ha DEC TOT. pose proof (nth_lt _ _ _ Ha) as Li.
    set (inv := fun n d => length d = length D /\ exists p, desc p i /\ (p = i \/ n <= p) /\ nth_error d p = Some x /\
      (forall j, ~ (desc p j /\ desc j i) -> nth_error d j = nth_error D j) /\
      (forall q y j b, desc q p -> q <> p -> nth_error D q = Some y -> desc q j -> q <> j -> j <> p -> nth_error d j = Some b -> lt y b = true) /\
      (forall q y, desc q p -> q <> p -> n <= q -> nth_error D q = Some y -> lt y x = true) /\
      (forall j b, desc p j -> j <> p -> nth_error d j = Some b -> lt x b = true)).
    assert (STEP : forall n d, n < length D -> inv (S n) d -> inv n (siftup lt d n)).
    { intros n d Ln (Ld & p & P1 & P2 & P3 & P4 & P5 & P6 & P7). destruct (lt_nth d n) as [y Hy]; [lia|].
      assert (KEEP : (forall j b, desc n j -> j <> n -> nth_error d j = Some b -> lt y b = true) -> (forall q z, desc q p -> q <> p -> n <= q -> nth_error D q = Some z -> lt z x = true) -> inv n (siftup lt d n)).
      { intros H1 H2. rewrite (siftup_id d n y Hy H1). split; [exact Ld|]. exists p. split; [exact P1|]. split; [destruct P2; [left; assumption|right; lia]|]. do 3 (split; [assumption|]). split; [exact H2|exact P7]. }
      assert (DEC' : {desc n p} + {~ desc n p}).
      { clear. revert p. apply (well_founded_induction_type lt_wf (fun p => {desc n p} + {~ desc n p})). intros p IH. destruct (Nat.eq_dec n p) as [->|N]; [left; constructor|].
        destruct (Nat.eq_dec p 0) as [->|N0]; [right; intros H; inversion H as [|q j D C]; subst; [congruence|destruct C; lia]|]. destruct (IH ((p - 1) / 2)) as [H|H]; [apply parent_lt; lia|left|right].
        - apply (desc_S _ _ _ H), parent_child. lia.
        - intros H'. apply H. apply desc_parent; [exact H'|]. pose proof (desc_le _ _ H'). lia. }
      destruct DEC' as [Dn|Nn].
      - destruct (Nat.eq_dec n p) as [->|Np].
        + apply KEEP; [assert (y = x) as -> by congruence; exact P7|]. intros q z Hq Nq Lq. pose proof (desc_le _ _ Hq). lia.
        + pose proof (desc_le _ _ Dn) as Lnp. assert (HyD : nth_error D n = Some y). { rewrite <- P4; [exact Hy|]. intros [Q1 _]. pose proof (desc_le _ _ Q1). lia. }
          assert (Nni : n <> i) by (pose proof (desc_le _ _ P1); lia).
          destruct (lt y x) eqn:YX.
          * apply KEEP.
            -- intros j b Dj Nj Hj. destruct (Nat.eq_dec j p) as [->|Njp]; [congruence|]. apply (P5 n y j b); auto.
            -- intros q z Hq Nq Lq Hz. destruct (Nat.eq_dec q n) as [->|Nqn]; [congruence|]. apply (P6 q z); auto. lia.
          * pose proof (TOT n y Nni HyD YX) as XY.
            assert (C : child n p).
            { destruct (desc_first n p Dn Np) as (c & C1 & C2). destruct (Nat.eq_dec c p) as [->|Nc]; [exact C1|]. exfalso. assert (n < c) by (unfold child in C1; lia).
              pose proof (desc_le _ _ C2). destruct (lt_nth D c) as [z Hz]; [pose proof (desc_le _ _ P1); lia|]. pose proof (P6 c z C2 Nc ltac:(lia) Hz) as ZX.
              assert (YZ : lt y z = true) by (apply (ST n c y z); [apply (desc_S _ n); [constructor|exact C1]|lia|exact HyD|exact Hz]). rewrite (lt_trans _ _ _ YZ ZX) in YX. discriminate. }
            assert (Lnp' : n < p) by lia. assert (Lp : p < length d) by (apply nth_lt in P3; exact P3).
            rewrite (siftup_swap d n p x y Hy C P3 XY).
            -- assert (NTH : forall j, nth_error (upd (upd d n x) p y) j = if j =? p then Some y else if j =? n then Some x else nth_error d j).
               { intros j. rewrite nth_upd, length_upd. destruct (Nat.eqb_spec j p); [destruct (Nat.ltb_spec p (length d)); [reflexivity|lia]|]. rewrite nth_upd. destruct (Nat.eqb_spec j n); [destruct (Nat.ltb_spec n (length d)); [reflexivity|lia]|reflexivity]. }
               split; [rewrite !length_upd; exact Ld|]. exists n. split; [apply (desc_trans _ p); assumption|]. split; [right; lia|]. split; [rewrite NTH; destruct (Nat.eqb_spec n p); [lia|]; rewrite Nat.eqb_refl; reflexivity|]. split; [|split; [|split]].
               ++ intros j Nj. rewrite NTH. destruct (Nat.eqb_spec j p) as [->|N1]; [exfalso; apply Nj; auto|]. destruct (Nat.eqb_spec j n) as [->|N2]; [exfalso; apply Nj; split; [constructor|apply (desc_trans _ p); assumption]|].
                  apply P4. intros [Q1 Q2]. apply Nj. split; [apply (desc_trans _ p); assumption|exact Q2].
               ++ intros q z j b Hq Nq Hz Hj Nj Njn Hb. rewrite NTH in Hb. destruct (Nat.eqb_spec j n) as [|_]; [contradiction|]. pose proof (desc_le _ _ Hq). destruct (Nat.eqb_spec j p) as [->|N1].
                  ** injection Hb as <-. apply (ST q n z y); assumption.
                  ** apply (P5 q z j b); [apply (desc_trans _ n); assumption|lia|exact Hz|exact Hj|exact Nj|exact N1|exact Hb].
               ++ intros q z Hq Nq Lq. pose proof (desc_le _ _ Hq). lia.
               ++ intros j b Dj Nj Hb. rewrite NTH in Hb. destruct (Nat.eqb_spec j n) as [|_]; [contradiction|]. destruct (Nat.eqb_spec j p) as [->|N1]; [injection Hb as <-; exact XY|].
                  apply (lt_trans _ y); [exact XY|]. apply (P5 n y j b); auto.
            -- intros j b Cj Nj Hb. apply (lt_trans _ y); [exact XY|]. apply (P5 n y j b Dn Np HyD); [apply (desc_S _ n); [constructor|exact Cj]|unfold child in Cj; lia|exact Nj|exact Hb].
            -- intros j b Dj Nj Hb. apply (P5 n y j b Dn Np HyD); [apply (desc_trans _ p); assumption|pose proof (desc_le _ _ Dj); lia|exact Nj|exact Hb].
      - (* not above p *) apply KEEP.
        + assert (NO : forall j, desc n j -> ~ (desc p j /\ desc j i)).
          { intros j Dj [Q1 Q2]. destruct (desc_total n p j Dj Q1) as [H|H]; [contradiction|]. destruct P2 as [->|P2].
            - assert (j = i) as -> by (pose proof (desc_le _ _ Q1); pose proof (desc_le _ _ Q2); lia). contradiction.
            - pose proof (desc_le _ _ H). lia. }
          rewrite (P4 n) in Hy by (apply NO; constructor). intros j b Dj Nj Hb. rewrite (P4 j) in Hb by (apply NO, Dj). apply (ST n j y b); auto.
        + intros q z Hq Nq Lq Hz. destruct (Nat.eq_dec q n) as [->|Nqn]; [contradiction|]. apply (P6 q z); auto. lia. }
    assert (G : forall n d, n <= length D -> inv n d -> inv 0 (fold_left (siftup lt) (rev (seq 0 n)) d)).
    { induction n as [|n IH]; intros d Ln H; [exact H|]. rewrite seq_S, rev_app_distr. cbn [rev app fold_left plus]. apply IH; [lia|]. apply STEP; [lia|exact H]. }
    intros j Lj. unfold heapify. rewrite length_upd. pose proof (Nat.div_mod (length D) 2 ltac:(lia)). pose proof (Nat.mod_upper_bound (length D) 2 ltac:(lia)).
    (* nothing to do before the parent of the last item *)
    assert (I0 : inv (length D) (upd D i x)).
    { split; [apply length_upd|]. exists i. split; [constructor|]. split; [left; reflexivity|]. split; [apply nth_upd_same, Li|]. split; [|split; [|split]].
      - intros k Nk. apply nth_upd_other. intros ->. apply Nk. split; constructor.
      - intros q y k b Hq Nq Hy Hk Nk Nki Hb. rewrite nth_upd_other in Hb by exact Nki. apply (ST q k y b); auto.
      - intros q y Hq Nq Lq Hy. apply nth_lt in Hy. lia.
      - intros k b Dk Nk Hb. rewrite nth_upd_other in Hb by exact Nk. apply DEC, (ST i k a b); auto. }
    assert (I1 : forall n, length D / 2 <= n <= length D -> inv n (upd D i x)).
    { intros n Hn. assert (W : forall m, m + n <= length D -> inv (m + n) (upd D i x) -> inv n (upd D i x)).
      { induction m as [|m IH]; intros Hm H'; [exact H'|]. apply IH; [lia|]. replace (upd D i x) with (siftup lt (upd D i x) (m + n)); [apply STEP; [lia|exact H']|].
        destruct (lt_nth (upd D i x) (m + n)) as [y Hy]; [rewrite length_upd; lia|]. apply (siftup_id _ _ y Hy). intros k b Dk Nk Hb. exfalso. destruct (desc_first _ _ Dk) as (c & C1 & C2); [auto|].
        apply nth_lt in Hb. rewrite length_upd in Hb. pose proof (desc_le _ _ C2). unfold child in C1. lia. }
      apply (W (length D - n)); [lia|]. replace (length D - n + n) with (length D) by lia. exact I0. }
    destruct (G (length D / 2) (upd D i x)) as (_ & p & P1 & _ & _ & P4 & _); [lia|apply I1; lia|]. apply P4. intros [_ Q]. apply desc_le in Q. lia.
  Qed.
End D.
