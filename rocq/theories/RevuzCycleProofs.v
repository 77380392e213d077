(** Lemmas on revuz_height and revuz_minimize on graphs with cycles. *)
From Coq Require Import ZArith.
From Verif Require Import Graph GraphProofs Automaton AutomatonSpec AutomatonProofs AutomatonProofs2 Heap Revuz RevuzSpec RevuzProofs RevuzProofs2 RevuzProofs3 RevuzCycleSpec Base BaseProofs.

Section H.
  Context {D : Type}.
  Variables (V : list nat) (out_degree : nat -> nat) (in_edges : nat -> list (edge D)) (arc : nat -> nat -> Prop).
  Hypothesis H_in : forall v u, In v V -> (exists e, In e (in_edges v) /\ source e = u) <-> arc u v.
  Hypothesis H_deg : forall v, In v V -> (out_degree v = 0 <-> leaf arc v).
  Hypothesis H_arc : forall u v, arc u v -> In u V /\ In v V.
  Notation level := (level V arc).

  (** Either the fuel is exhausted, and some vertex has a path of [h + fuel] arcs to a leaf, or the heights below h' are set and no vertex has a path of h' arcs to a leaf. *)
  Lemma height_loop_any ord m0 : valid_order ord -> forall fuel h todo m, NoDup todo -> (forall v, In v todo <-> level h v) -> heights_ok V arc m0 h m ->
    match height_loop in_edges fuel ord h todo m with
    | None => exists v, level (h + fuel) v
    | Some (r, m') => exists h', r = (Z.of_nat h' - 1)%Z /\ heights_ok V arc m0 h' m' /\ h <= h' <= h + fuel /\ (forall v, ~ level h' v) /\ forall n, h <= n < h' -> exists v, level n v
    end.
  Proof.
    intros OV. induction fuel as [|fuel IH]; intros h todo m N HT HO.
    - destruct todo as [|v todo]; cbn [height_loop].
      + exists h. split; [reflexivity|]. split; [exact HO|]. split; [lia|]. split; [intros v L; apply (HT v), L|intros; lia].
      + exists v. rewrite Nat.add_0_r. apply HT. left. reflexivity.
    - cbn [height_loop]. destruct todo as [|v0 todo0] eqn:ET; [exists h; split; [reflexivity|]; split; [exact HO|]; split; [lia|]; split; [intros v L; apply (HT v), L|intros; lia]|]. rewrite <- ET in *.
      pose proof (OV fuel todo) as PO. pose proof (level_fold in_edges h (ord fuel todo) m [] (NoDup_nil _)) as LF. destruct (fold_left _ (ord fuel todo) (m, [])) as [m1 next]. destruct LF as (L1 & L2 & L3).
      assert (MO : forall v, mem v (ord fuel todo) = true <-> level h v). { intros v. rewrite mem_spec, <- HT. split; apply Permutation_in; [exact PO|apply Permutation_sym, PO]. }
      assert (NX : forall u, In u next <-> level (S h) u).
      { intros u. rewrite L2, (level_S V arc H_arc). split.
        - intros [[]|(v & e & I & Ie & Es)]. exists v. apply (Permutation_in _ PO), HT in I. split; [exact I|]. destruct I as [Vv _]. apply (H_in v u Vv). exists e. auto.
        - intros (v & Lv & R). right. exists v. destruct (proj2 (H_in v u (proj1 Lv)) R) as (e & Ie & Es). exists e. split; [apply (Permutation_in _ (Permutation_sym PO)), HT, Lv|auto]. }
      assert (HO1 : heights_ok V arc m0 (S h) m1).
      { intros v. rewrite L3. destruct (mem v (ord fuel todo)) eqn:M.
        - left. exists h. apply MO in M. split; [lia|]. split; [exact M|]. split; [intros; lia|reflexivity].
        - assert (NL : ~ level h v) by (intros L; apply MO in L; congruence). destruct (HO v) as [(n & N1 & N2 & N3 & N4)|[N1 N2]].
          + left. exists n. split; [lia|]. split; [exact N2|]. split; [|exact N4]. intros n' Hn' Ln'. destruct (Nat.eq_dec n' h) as [->|]; [contradiction|]. apply N3; [lia|exact Ln'].
          + right. split; [|exact N2]. intros n Hn Ln. destruct (Nat.eq_dec n h) as [->|]; [contradiction|]. apply (N1 n); [lia|exact Ln]. }
      specialize (IH (S h) next m1 L1 NX HO1). destruct (height_loop in_edges fuel ord (S h) next m1) as [[r m']|].
      + destruct IH as (h' & E & Q2 & Q3 & Q4 & Q5). exists h'. split; [exact E|]. split; [exact Q2|]. split; [lia|]. split; [exact Q4|]. intros n Hn. destruct (Nat.eq_dec n h) as [->|]; [|apply Q5; lia]. exists v0. apply HT. rewrite ET. left. reflexivity.
      + destruct IH as [v L]. exists v. replace (h + S fuel) with (S h + fuel) by lia. exact L.
  Qed.

  (** Paths to a leaf when no cycle leads to a leaf *)
  Lemma leaf_path_list n u l : cycles_apart arc -> leaf arc l -> upath arc n u l -> In u V -> exists p, length p = S n /\ NoDup p /\ (forall x, In x p -> In x V) /\ forall x, In x p -> exists m, upath arc m u x.
  Proof.
    intros CA LF. induction 1 as [u|n u v x R P IH]; intros Vu.
    - exists [u]. split; [reflexivity|]. split; [repeat constructor; intros []|]. split; [intros x [<-|[]]; exact Vu|]. intros x [<-|[]]. exists 0. constructor.
    - destruct (IH LF (proj2 (H_arc _ _ R))) as (p & L1 & L2 & L3 & L4). exists (u :: p). split; [cbn; lia|]. split; [|split].
      + constructor; [|exact L2]. intros I. destruct (L4 u I) as [m P']. apply (CA m u); [econstructor; eassumption|]. exists (S n), x. split; [exact LF|]. econstructor; eassumption.
      + intros y [<-|I]; auto.
      + intros y [<-|I]; [exists 0; constructor|]. destruct (L4 y I) as [m P']. exists (S m). econstructor; eassumption.
  Qed.
  Lemma leaf_path_short n v : cycles_apart arc -> level n v -> n < length V.
  Proof.
    intros CA (Vv & l & LF & P). destruct (leaf_path_list n v l CA LF P Vv) as (p & L1 & L2 & L3 & _). pose proof (NoDup_incl_length L2 L3). lia.
  Qed.
  Lemma cycle_iter n v : upath arc (S n) v v -> forall k, upath arc (k * S n) v v.
  Proof. intros C. induction k as [|k IH]; [constructor|]. cbn [Nat.mul]. apply (upath_app arc (S n) (k * S n) v v v C IH). Qed.
  Lemma cycle_levels n v : upath arc (S n) v v -> In v V -> ends arc v -> forall k, exists m, k <= m /\ level m v.
  Proof.
    intros C Vv (m & l & LF & P) k. exists (k * S n + m). split; [nia|]. split; [exact Vv|]. exists l. split; [exact LF|]. apply (upath_app arc (k * S n) m v v l); [apply cycle_iter, C|exact P].
  Qed.
  Lemma cycle_in n v : upath arc (S n) v v -> In v V.
  Proof. intros C. inversion C as [|? ? u ? R P]; subst. apply (H_arc v u R). Qed.

  Lemma height_any ord m0 fuel : valid_order ord -> NoDup V ->
    match revuz_height V out_degree in_edges fuel ord [] m0 with
    | None => exists v, level fuel v
    | Some (r, m) => exists h', r = (Z.of_nat h' - 1)%Z /\ heights_ok V arc m0 h' m /\ h' <= fuel /\ (forall v, ~ level h' v) /\ forall n, n < h' -> exists v, level n v
    end.
  Proof.
    intros OV NV. unfold revuz_height, leaves_of. pose proof (height_loop_any ord m0 OV fuel 0 (filter (fun q => out_degree q =? 0) V) m0) as HL.
    destruct (height_loop in_edges fuel ord 0 (filter (fun q => out_degree q =? 0) V) m0) as [[r m]|].
    - destruct HL as (h' & E & H1 & H2 & H3 & H4).
      + apply NoDup_filter, NV.
      + intros v. rewrite filter_In, Nat.eqb_eq, level_0. split; intros [Vv H]; (split; [exact Vv|]; apply (H_deg v Vv), H).
      + intros v. right. split; [intros; lia|reflexivity].
      + exists h'. split; [exact E|]. split; [exact H1|]. split; [lia|]. split; [exact H3|]. intros n L. apply H4. lia.
    - apply HL.
      + apply NoDup_filter, NV.
      + intros v. rewrite filter_In, Nat.eqb_eq, level_0. split; intros [Vv H]; (split; [exact Vv|]; apply (H_deg v Vv), H).
      + intros v. right. split; [intros; lia|reflexivity].
  Qed.

  Lemma height_cycles ord m0 fuel : valid_order ord -> NoDup V ->
    ((exists n v, upath arc (S n) v v /\ ends arc v) -> revuz_height V out_degree in_edges fuel ord [] m0 = None) /\
    (cycles_apart arc -> length V <= fuel -> exists r m, revuz_height V out_degree in_edges fuel ord [] m0 = Some (r, m) /\
      (forall v, (In v V /\ exists n, dget m v = Some n /\ height_is arc v n /\ (Z.of_nat n <= r)%Z) \/ (~ (In v V /\ ends arc v) /\ dget m v = dget m0 v)) /\
      ((r = (-1)%Z /\ forall v, In v V -> ~ ends arc v) \/ exists v n, In v V /\ height_is arc v n /\ r = Z.of_nat n)).
  Proof.
    intros OV NV. pose proof (height_any ord m0 fuel OV NV) as HA. split.
    - intros (n & v & C & EN). destruct (revuz_height V out_degree in_edges fuel ord [] m0) as [[r m]|]; [exfalso|reflexivity]. destruct HA as (h' & _ & _ & _ & H3 & _).
      destruct (cycle_levels n v C (cycle_in n v C) EN h') as (k & L1 & L2). pose proof (level_down V arc H_arc h' H3 k v L2). lia.
    - intros CA F. destruct (revuz_height V out_degree in_edges fuel ord [] m0) as [[r m]|].
      + destruct HA as (h' & -> & H1 & H2 & H3 & H4). pose proof (level_down V arc H_arc h' H3) as LT. exists (Z.of_nat h' - 1)%Z, m. split; [reflexivity|]. split.
        * intros v. destruct (H1 v) as [(n & N1 & N2 & N3 & N4)|[N1 N2]].
          -- left. split; [apply N2|]. exists n. split; [exact N4|]. split; [apply (level_height V); [exact N2|]; intros n' L'; apply N3; [apply (LT n' v L')|exact L']|lia].
          -- right. split; [|exact N2]. intros (Vv & k & l & LF & P). assert (Lk : level k v) by (split; [exact Vv|exists l; auto]). destruct (N1 k); [apply (LT k v Lk)|exact Lk].
        * destruct h' as [|h'].
          -- left. split; [reflexivity|]. intros v Vv (k & l & LF & P). assert (Lk : level k v) by (split; [exact Vv|exists l; auto]). specialize (LT k v Lk). lia.
          -- right. destruct (H4 h' ltac:(lia)) as [v Lv]. exists v, h'. split; [apply Lv|]. split; [|lia]. apply (level_height V); [exact Lv|]. intros n' L'. specialize (LT n' v L'). lia.
      + destruct HA as [v L]. pose proof (leaf_path_short fuel v CA L). lia.
  Qed.
End H.
