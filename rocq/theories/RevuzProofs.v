(** Lemmas on revuz_height. *)
From Coq Require Import ZArith.
From Verif Require Import Graph Automaton AutomatonSpec Revuz RevuzSpec Base BaseProofs.

Section H.
  Context {D : Type}.
  Variables (V : list nat) (out_degree : nat -> nat) (in_edges : nat -> list (edge D)) (arc : nat -> nat -> Prop).
  Hypothesis H_in : forall v u, In v V -> (exists e, In e (in_edges v) /\ source e = u) <-> arc u v.
  Hypothesis H_deg : forall v, In v V -> (out_degree v = 0 <-> leaf arc v).
  Hypothesis H_arc : forall u v, arc u v -> In u V /\ In v V.
  Hypothesis H_acyclic : acyclic arc.

  Lemma upath_app n m u v x : upath arc n u v -> upath arc m v x -> upath arc (n + m) u x.
  Proof. induction 1; cbn; [auto|]. intros P. econstructor; eauto. Qed.
  Lemma upath_snoc n u v x : upath arc n u v -> arc v x -> upath arc (S n) u x.
  Proof. intros P R. replace (S n) with (n + 1) by lia. apply (upath_app _ _ _ v); [exact P|]. econstructor; [exact R|constructor]. Qed.
  Lemma upath_in n u v : upath arc n u v -> In u V -> In v V.
  Proof. induction 1; [auto|]. intros _. apply IHupath, (H_arc u v). assumption. Qed.
  Lemma path_list n u v : upath arc n u v -> In u V -> exists l, length l = S n /\ NoDup l /\ (forall x, In x l -> In x V) /\ forall x, In x l -> exists m, upath arc m u x.
  Proof.
    induction 1 as [u|n u v x R P IH]; intros Vu.
    - exists [u]. split; [reflexivity|]. split; [repeat constructor; intros []|]. split; [intros x [<-|[]]; exact Vu|]. intros x [<-|[]]. exists 0. constructor.
    - destruct (IH (proj2 (H_arc _ _ R))) as (l & L1 & L2 & L3 & L4). exists (u :: l). split; [cbn; lia|]. split; [|split].
      + constructor; [|exact L2]. intros I. destruct (L4 u I) as [m P']. apply (H_acyclic m u). econstructor; eassumption.
      + intros y [<-|I]; auto.
      + intros y [<-|I]; [exists 0; constructor|]. destruct (L4 y I) as [m P']. exists (S m). econstructor; eassumption.
  Qed.
  Lemma path_short n u v : upath arc n u v -> In u V -> n < length V.
  Proof. intros P Vu. destruct (path_list n u v P Vu) as (l & L1 & L2 & L3 & _). pose proof (NoDup_incl_length L2 L3). lia. Qed.

  (** [level n v]: v reaches a leaf in n steps *)
  Definition level (n v : nat) : Prop := In v V /\ exists l, leaf arc l /\ upath arc n v l.
  Lemma reaches_leaf v : In v V -> exists n, level n v.
  Proof.
    intros Vv. assert (G : forall n, (exists m, level m v) \/ exists u, upath arc n v u).
    { induction n as [|n [IH|(u & P)]]; [right; exists v; constructor|auto|]. pose proof (upath_in _ _ _ P Vv) as Vu. destruct (Nat.eq_dec (out_degree u) 0) as [Z|N].
      - left. exists n. split; [exact Vv|]. exists u. split; [apply H_deg; assumption|exact P].
      - destruct (in_dec Nat.eq_dec u V); [|contradiction]. right.
        assert (EX : exists x, arc u x).
        { assert (DEC : (exists x, In x V /\ exists e, In e (in_edges x) /\ source e = u) \/ ~ (exists x, In x V /\ exists e, In e (in_edges x) /\ source e = u)).
          { clear -V. induction V as [|x l [IH|IH]]; [right; intros (? & [] & _)|left; destruct IH as (y & I & H); exists y; cbn; auto|].
            destruct (in_dec Nat.eq_dec u (map source (in_edges x))) as [J|J].
            - left. exists x. split; [left; reflexivity|]. apply in_map_iff in J. destruct J as (e & E & J). exists e. auto.
            - right. intros (y & [<-|I] & e & H1 & H2); [apply J; rewrite <- H2; apply in_map; exact H1|]. apply IH. exists y. split; [exact I|]. exists e. auto. }
          destruct DEC as [(x & Vx & H)|H]; [exists x; apply H_in; assumption|]. exfalso. apply N. apply H_deg; [exact Vu|]. intros x R. apply H. exists x. destruct (H_arc _ _ R). split; [assumption|]. apply H_in; assumption. }
        destruct EX as [x R]. exists x. apply (upath_snoc _ _ u); assumption. }
    destruct (G (length V)) as [H|(u & P)]; [exact H|]. pose proof (path_short _ _ _ P Vv). lia.
  Qed.
  Lemma level_S n v : level (S n) v <-> exists u, level n u /\ arc v u.
  Proof.
    split.
    - intros (Vv & l & L & P). inversion P as [|? ? u ? R P']; subst. exists u. split; [|exact R]. split; [apply (H_arc v u R)|]. exists l. auto.
    - intros (u & (Vu & l & L & P) & R). split; [apply (H_arc v u R)|]. exists l. split; [exact L|]. econstructor; eassumption.
  Qed.
  Lemma level_0 v : level 0 v <-> In v V /\ leaf arc v.
  Proof. split; [intros (Vv & l & L & P); inversion P; subst; auto|intros [Vv L]; split; [exact Vv|]; exists v; split; [exact L|constructor]]. Qed.

  Lemma add_sources l : forall next, NoDup next -> NoDup (fold_left (fun next e => sadd (source e) next) l next) /\
    forall u, In u (fold_left (fun next (e : edge D) => sadd (source e) next) l next) <-> In u next \/ exists e, In e l /\ source e = u.
  Proof.
    induction l as [|e l IH]; intros next N; cbn [fold_left]; [split; [exact N|]; intros u; firstorder|]. destruct (IH (sadd (source e) next)) as [H1 H2]; [apply NoDup_sadd, N|]. split; [exact H1|].
    intros u. rewrite H2, In_sadd. cbn. split; [intros [[H|H]|(e' & ? & ?)]; subst; eauto|intros [H|(e' & [<-|H] & <-)]; eauto].
  Qed.
  Lemma level_fold h l : forall m next, NoDup next -> let '(m', next') := fold_left (height_step in_edges h) l (m, next) in
    NoDup next' /\ (forall u, In u next' <-> In u next \/ exists v e, In v l /\ In e (in_edges v) /\ source e = u) /\ forall v, dget m' v = if mem v l then Some h else dget m v.
  Proof.
    induction l as [|x l IH]; intros m next N; cbn [fold_left]; [split; [exact N|]; split; [intros u; firstorder|reflexivity]|].
    unfold height_step at 2. destruct (add_sources (in_edges x) next N) as [A1 A2]. specialize (IH (dset m x h) _ A1). destruct (fold_left _ l _) as [m' next']. destruct IH as (I1 & I2 & I3). split; [exact I1|]. split.
    - intros u. rewrite I2, A2. split; [intros [[?|(e & ? & ?)]|(v & e & ? & ? & ?)]; [auto|right; exists x, e; cbn; auto|right; exists v, e; cbn; auto]|intros [?|(v & e & [<-|?] & ? & ?)]; [auto|left; right; exists e; auto|right; exists v, e; auto]].
    - intros v. rewrite I3, dget_dset. change (mem v (x :: l)) with (eqb v x || mem v l). destruct (eqb_spec v x), (mem v l); reflexivity.
  Qed.

  Definition heights_ok (m0 : dict nat nat) (h : nat) (m : dict nat nat) : Prop := forall v,
    (exists n, n < h /\ level n v /\ (forall n', n' < h -> level n' v -> n' <= n) /\ dget m v = Some n) \/ ((forall n, n < h -> ~ level n v) /\ dget m v = dget m0 v).
  Lemma height_loop_spec ord m0 : valid_order ord -> forall fuel h todo m, NoDup todo -> (forall v, In v todo <-> level h v) -> heights_ok m0 h m -> length V <= fuel + h ->
    exists h' m', height_loop in_edges fuel ord h todo m = Some ((Z.of_nat h' - 1)%Z, m') /\ heights_ok m0 h' m' /\ h <= h' /\ (forall v, ~ level h' v) /\ forall n, h <= n < h' -> exists v, level n v.
  Proof.
    intros OV. induction fuel as [|fuel IH]; intros h todo m N HT HO F.
    - destruct todo as [|v todo]; [exists h, m; split; [reflexivity|]; split; [exact HO|]; split; [lia|]; split; [intros v L; apply (HT v), L|intros; lia]|].
      exfalso. destruct (proj1 (HT v) (or_introl eq_refl)) as (Vv & l & _ & P). pose proof (path_short _ _ _ P Vv). lia.
    - cbn [height_loop]. destruct todo as [|v0 todo0] eqn:ET; [exists h, m; split; [reflexivity|]; split; [exact HO|]; split; [lia|]; split; [intros v L; apply (HT v), L|intros; lia]|]. rewrite <- ET in *.
      pose proof (OV fuel todo) as PO. pose proof (level_fold h (ord fuel todo) m [] (NoDup_nil _)) as LF. destruct (fold_left _ (ord fuel todo) (m, [])) as [m1 next]. destruct LF as (L1 & L2 & L3).
      assert (MO : forall v, mem v (ord fuel todo) = true <-> level h v). { intros v. rewrite mem_spec, <- HT. split; apply Permutation_in; [exact PO|apply Permutation_sym, PO]. }
      destruct (IH (S h) next m1 L1) as (h' & m' & Q1 & Q2 & Q3 & Q4 & Q5).
      + intros u. rewrite L2, level_S. split.
        * intros [[]|(v & e & I & Ie & Es)]. exists v. apply (Permutation_in _ PO), HT in I. split; [exact I|]. destruct I as [Vv _]. apply (H_in v u Vv). exists e. auto.
        * intros (v & Lv & R). right. exists v. destruct (proj2 (H_in v u (proj1 Lv)) R) as (e & Ie & Es). exists e. split; [apply (Permutation_in _ (Permutation_sym PO)), HT, Lv|auto].
      + intros v. rewrite L3. destruct (mem v (ord fuel todo)) eqn:M.
        * left. exists h. apply MO in M. split; [lia|]. split; [exact M|]. split; [intros; lia|reflexivity].
        * assert (NL : ~ level h v) by (intros L; apply MO in L; congruence). destruct (HO v) as [(n & N1 & N2 & N3 & N4)|[N1 N2]].
          -- left. exists n. split; [lia|]. split; [exact N2|]. split; [|exact N4]. intros n' Hn' Ln'. destruct (Nat.eq_dec n' h) as [->|]; [contradiction|]. apply N3; [lia|exact Ln'].
          -- right. split; [|exact N2]. intros n Hn Ln. destruct (Nat.eq_dec n h) as [->|]; [contradiction|]. apply (N1 n); [lia|exact Ln].
      + lia.
      + exists h', m'. split; [exact Q1|]. split; [exact Q2|]. split; [lia|]. split; [exact Q4|]. intros n Hn. destruct (Nat.eq_dec n h) as [->|]; [|apply Q5; lia]. exists v0. apply HT. rewrite ET. left. reflexivity.
  Qed.
  Lemma level_height n v : level n v -> (forall n', level n' v -> n' <= n) -> height_is arc v n.
  Proof. intros [Vv L] M. split; [exact L|]. intros m l Ll P. apply M. split; [exact Vv|]. exists l. auto. Qed.
  Lemma level_down h' : (forall v, ~ level h' v) -> forall n v, level n v -> n < h'.
  Proof.
    intros N n. induction (Nat.lt_ge_cases n h') as [?|GE] using or_ind; [auto|]. intros v L. exfalso. revert v L. induction GE as [|n GE IH]; intros v L; [apply (N v L)|]. apply level_S in L. destruct L as (u & L & _). apply (IH u L).
  Qed.
  Lemma height_spec ord m0 fuel : valid_order ord -> NoDup V -> length V <= fuel -> exists r m, revuz_height V out_degree in_edges fuel ord [] m0 = Some (r, m) /\
    (forall v, In v V -> exists n, dget m v = Some n /\ height_is arc v n /\ (Z.of_nat n <= r)%Z) /\ (forall v, ~ In v V -> dget m v = dget m0 v) /\
    ((V = [] /\ r = (-1)%Z) \/ exists v, In v V /\ option_map Z.of_nat (dget m v) = Some r).
  Proof.
    intros OV NV F. unfold revuz_height, leaves_of. destruct (height_loop_spec ord m0 OV fuel 0 (filter (fun q => out_degree q =? 0) V) m0) as (h' & m & Q1 & Q2 & _ & Q4 & Q5).
    - apply NoDup_filter, NV.
    - intros v. rewrite filter_In, Nat.eqb_eq, level_0. split; intros [Vv H]; (split; [exact Vv|]; apply (H_deg v Vv), H).
    - intros v. right. split; [intros; lia|reflexivity].
    - lia.
    - pose proof (level_down h' Q4) as LT. exists (Z.of_nat h' - 1)%Z, m. split; [exact Q1|]. split; [|split].
      + intros v Vv. destruct (Q2 v) as [(n & N1 & N2 & N3 & N4)|[N1 _]].
        * exists n. split; [exact N4|]. split; [apply level_height; [exact N2|]; intros n' L'; apply N3; [apply (LT n' v L')|exact L']|lia].
        * exfalso. destruct (reaches_leaf v Vv) as [n L]. apply (N1 n); [apply (LT n v L)|exact L].
      + intros v NVv. destruct (Q2 v) as [(n & _ & [Vv _] & _)|[_ E]]; [contradiction|exact E].
      + destruct h' as [|h'].
        * left. split; [|reflexivity]. assert (N0 : forall x, ~ In x V) by (intros x Vx; destruct (reaches_leaf x Vx) as [n L]; specialize (LT n x L); lia). clear -N0. destruct V as [|x l]; [reflexivity|]. destruct (N0 x). left. reflexivity.
        * right. destruct (Q5 h' ltac:(lia)) as [v Lv]. exists v. split; [apply Lv|]. destruct (Q2 v) as [(n & N1 & N2 & N3 & N4)|[N1 _]]; [|destruct (N1 h'); [lia|exact Lv]].
          rewrite N4. change (Some (Z.of_nat n) = Some (Z.of_nat (S h') - 1)%Z). assert (n = h') by (specialize (N3 h' ltac:(lia) Lv); lia). subst. apply (f_equal Some). lia.
  Qed.
End H.
