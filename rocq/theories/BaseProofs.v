(** Lemmas about dictionaries and sets. *)
From Verif Require Export Base.

Section Eqb.
  Context {A : Type} `{EqDec A}.
  Lemma eqb_spec (x y : A) : reflect (x = y) (eqb x y).
  Proof. unfold eqb. destruct (eq_dec x y); constructor; assumption. Qed.
  Lemma eqb_refl (x : A) : eqb x x = true.
  Proof. destruct (eqb_spec x x); congruence. Qed.
  Lemma eqb_eq (x y : A) : eqb x y = true <-> x = y.
  Proof. destruct (eqb_spec x y); split; congruence. Qed.
  Lemma eqb_neq (x y : A) : eqb x y = false <-> x <> y.
  Proof. destruct (eqb_spec x y); split; congruence. Qed.
  Lemma mem_spec (x : A) l : mem x l = true <-> In x l.
  Proof.
    unfold mem. rewrite existsb_exists. split.
    - intros (y & Hy & E). apply eqb_eq in E. subst. exact Hy.
    - intros Hx. exists x. split; [exact Hx | apply eqb_refl].
  Qed.
  Lemma mem_false (x : A) l : mem x l = false <-> ~ In x l.
  Proof. rewrite <- mem_spec. destruct (mem x l); split; congruence. Qed.
  Lemma mem_reflect (x : A) l : reflect (In x l) (mem x l).
  Proof. destruct (mem x l) eqn:E; constructor; [apply mem_spec | apply mem_false]; exact E. Qed.
  Lemma in_dec' (x : A) l : {In x l} + {~ In x l}.
  Proof. destruct (mem_reflect x l); [left | right]; assumption. Qed.
End Eqb.

Section DictLemmas.
  Context {K V : Type} `{EqDec K}.
  Implicit Types d : dict K V.

  Lemma dget_dset d k v k' : dget (dset d k v) k' = if eqb k' k then Some v else dget d k'.
  Proof.
    induction d as [|[k0 v0] d IH]; cbn.
    - destruct (eqb_spec k' k); reflexivity.
    - destruct (eqb_spec k k0) as [->|N]; cbn.
      + destruct (eqb_spec k' k0); reflexivity.
      + rewrite IH. destruct (eqb_spec k' k0) as [->|N']; [|reflexivity].
        destruct (eqb_spec k0 k); [congruence | reflexivity].
  Qed.

  Lemma dget_dset_same d k v : dget (dset d k v) k = Some v.
  Proof. rewrite dget_dset, eqb_refl. reflexivity. Qed.
  Lemma dget_dset_other d k v k' : k' <> k -> dget (dset d k v) k' = dget d k'.
  Proof. intros N. rewrite dget_dset. apply eqb_neq in N. rewrite N. reflexivity. Qed.

  Lemma dget_None d k : dget d k = None <-> ~ In k (dkeys d).
  Proof.
    induction d as [|[k0 v0] d IH]; cbn; [tauto|].
    destruct (eqb_spec k k0) as [->|N].
    - split; [discriminate | intros F; exfalso; apply F; left; reflexivity].
    - rewrite IH. split; intros F; [intros [E|I]; [congruence | exact (F I)] | tauto].
  Qed.

  Lemma dget_In d k v : dget d k = Some v -> In (k, v) d.
  Proof.
    induction d as [|[k0 v0] d IH]; cbn; [discriminate|].
    destruct (eqb_spec k k0) as [->|N]; intros E; [left; congruence | right; auto].
  Qed.

  Lemma dget_Some_key d k v : dget d k = Some v -> In k (dkeys d).
  Proof. intros E. apply dget_In in E. apply (in_map fst) in E. exact E. Qed.

  Lemma key_dget d k : In k (dkeys d) -> exists v, dget d k = Some v.
  Proof.
    intros I. destruct (dget d k) as [v|] eqn:E; [eauto|].
    apply dget_None in E. contradiction.
  Qed.

  Lemma In_dget d k v : NoDup (dkeys d) -> In (k, v) d -> dget d k = Some v.
  Proof.
    induction d as [|[k0 v0] d IH]; cbn; [tauto|].
    intros ND [E|I]; inversion ND as [|? ? NI ND']; subst.
    - injection E as -> ->. rewrite eqb_refl. reflexivity.
    - destruct (eqb_spec k k0) as [->|N]; [|auto].
      exfalso. apply NI. apply (in_map fst) in I. exact I.
  Qed.

  Lemma In_dget_iff d k v : NoDup (dkeys d) -> (In (k, v) d <-> dget d k = Some v).
  Proof. intros ND. split; [apply In_dget; exact ND | apply dget_In]. Qed.

  Lemma dkeys_dset_new d k v : ~ In k (dkeys d) -> dkeys (dset d k v) = dkeys d ++ [k].
  Proof.
    unfold dkeys in *. induction d as [|[k0 v0] d IH]; cbn; [reflexivity|].
    intros NI. destruct (eqb_spec k k0) as [->|N]; [tauto|].
    cbn. rewrite IH; tauto.
  Qed.

  Lemma dkeys_dset_old d k v : In k (dkeys d) -> dkeys (dset d k v) = dkeys d.
  Proof.
    unfold dkeys in *. induction d as [|[k0 v0] d IH]; cbn; [tauto|].
    intros I. destruct (eqb_spec k k0) as [->|N]; cbn; [reflexivity|].
    rewrite IH; [reflexivity|]. destruct I; [congruence | assumption].
  Qed.

  Lemma In_dkeys_dset d k v k' : In k' (dkeys (dset d k v)) <-> k' = k \/ In k' (dkeys d).
  Proof.
    destruct (in_dec' k (dkeys d)) as [I|NI].
    - rewrite dkeys_dset_old by exact I. split; [tauto|].
      intros [->|]; tauto.
    - rewrite dkeys_dset_new by exact NI. rewrite in_app_iff. cbn. intuition congruence.
  Qed.

  Lemma NoDup_dset d k v : NoDup (dkeys d) -> NoDup (dkeys (dset d k v)).
  Proof.
    intros ND. destruct (in_dec' k (dkeys d)) as [I|NI].
    - rewrite dkeys_dset_old by exact I. exact ND.
    - rewrite dkeys_dset_new by exact NI.
      apply NoDup_rev in ND. rewrite <- rev_involutive. apply NoDup_rev.
      rewrite rev_app_distr. cbn. constructor; [|exact ND]. rewrite <- in_rev. exact NI.
  Qed.

  Lemma dkeys_ddel d k : NoDup (dkeys d) -> dkeys (ddel d k) = srem k (dkeys d).
  Proof.
    unfold dkeys. induction d as [|[k0 v0] d IH]; cbn; [reflexivity|].
    intros ND; inversion ND as [|? ? NI ND']; subst.
    destruct (eqb_spec k k0) as [->|N]; cbn.
    - clear IH ND ND'. induction (map fst d) as [|x l IHl]; cbn; [reflexivity|].
      destruct (eqb_spec k0 x) as [->|]; cbn.
      + exfalso. apply NI. left. reflexivity.
      + f_equal. apply IHl. intros ?; apply NI; right; assumption.
    - rewrite IH by exact ND'. reflexivity.
  Qed.

  Lemma NoDup_ddel d k : NoDup (dkeys d) -> NoDup (dkeys (ddel d k)).
  Proof. intros ND. rewrite dkeys_ddel by exact ND. unfold srem. apply NoDup_filter. exact ND. Qed.

  Lemma dget_ddel d k k' :
    NoDup (dkeys d) -> dget (ddel d k) k' = if eqb k' k then None else dget d k'.
  Proof.
    induction d as [|[k0 v0] d IH]; cbn.
    - intros _. destruct (eqb k' k); reflexivity.
    - intros ND; inversion ND as [|? ? NI ND1]; subst.
      destruct (eqb_spec k k0) as [E|N]; cbn.
      + subst k0. destruct (eqb_spec k' k) as [E'|N']; [|reflexivity].
        subst k'. apply dget_None. exact NI.
      + rewrite IH by exact ND1. destruct (eqb_spec k' k0) as [E'|N'].
        * subst k'. destruct (eqb_spec k0 k); [congruence|reflexivity].
        * reflexivity.
  Qed.

  Lemma dmem_spec d k : dmem d k = true <-> In k (dkeys d).
  Proof.
    unfold dmem. destruct (dget d k) eqn:E.
    - split; [intros _; eapply dget_Some_key; exact E | reflexivity].
    - apply dget_None in E. split; [discriminate | contradiction].
  Qed.
  Lemma dmem_false d k : dmem d k = false <-> ~ In k (dkeys d).
  Proof. rewrite <- dmem_spec. destruct (dmem d k); split; congruence. Qed.
End DictLemmas.

Section SetLemmas.
  Context {A : Type} `{EqDec A}.
  Lemma In_sadd (x y : A) s : In y (sadd x s) <-> y = x \/ In y s.
  Proof.
    unfold sadd. destruct (mem_reflect x s).
    - split; [tauto | intros [->|]; assumption].
    - rewrite in_app_iff. cbn. intuition congruence.
  Qed.
  Lemma NoDup_snoc (x : A) s : NoDup s -> ~ In x s -> NoDup (s ++ [x]).
  Proof.
    intros ND NI. rewrite <- (rev_involutive (s ++ [x])). apply NoDup_rev.
    rewrite rev_app_distr. cbn. constructor; [rewrite <- in_rev; exact NI | apply NoDup_rev; exact ND].
  Qed.
  Lemma NoDup_sadd (x : A) s : NoDup s -> NoDup (sadd x s).
  Proof.
    unfold sadd. destruct (mem_reflect x s) as [I|NI]; [tauto|].
    intros ND. apply NoDup_snoc; assumption.
  Qed.
  Lemma In_srem (x y : A) s : In y (srem x s) <-> y <> x /\ In y s.
  Proof.
    unfold srem. rewrite filter_In, negb_true_iff, eqb_neq. intuition congruence.
  Qed.
  Lemma NoDup_srem (x : A) s : NoDup s -> NoDup (srem x s).
  Proof. apply NoDup_filter. Qed.
  Lemma srem_notin (x : A) s : ~ In x s -> srem x s = s.
  Proof.
    unfold srem. induction s as [|y s IH]; cbn; [reflexivity|]. intros NI.
    destruct (eqb_spec x y) as [->|N]; cbn; [tauto|]. rewrite IH; tauto.
  Qed.
  Lemma In_sunion (x : A) s t : In x (sunion s t) <-> In x s \/ In x t.
  Proof.
    unfold sunion. revert s. induction t as [|y t IH]; cbn; intros s; [tauto|].
    rewrite IH, In_sadd. intuition congruence.
  Qed.
  Lemma NoDup_sunion (s t : list A) : NoDup s -> NoDup (sunion s t).
  Proof.
    unfold sunion. revert s. induction t as [|y t IH]; cbn; intros s ND; [exact ND|].
    apply IH. apply NoDup_sadd. exact ND.
  Qed.
  Lemma In_sinter (x : A) s t : In x (sinter s t) <-> In x s /\ In x t.
  Proof. unfold sinter. rewrite filter_In, mem_spec. tauto. Qed.
  Lemma In_sdiff (x : A) s t : In x (sdiff s t) <-> In x s /\ ~ In x t.
  Proof. unfold sdiff. rewrite filter_In, negb_true_iff, mem_false. tauto. Qed.
  Lemma In_sof (x : A) l : In x (sof l) <-> In x l.
  Proof. unfold sof. rewrite In_sunion. cbn. tauto. Qed.
  Lemma NoDup_sof (l : list A) : NoDup (sof l).
  Proof. apply NoDup_sunion. constructor. Qed.
  Lemma NoDup_sdiff (s t : list A) : NoDup s -> NoDup (sdiff s t).
  Proof. apply NoDup_filter. Qed.
  Lemma NoDup_sinter (s t : list A) : NoDup s -> NoDup (sinter s t).
  Proof. apply NoDup_filter. Qed.
End SetLemmas.

Lemma NoDup_app_intro {A} (l1 l2 : list A) :
  NoDup l1 -> NoDup l2 -> (forall x, In x l1 -> In x l2 -> False) -> NoDup (l1 ++ l2).
Proof.
  induction l1 as [|x l1 IH]; cbn; [tauto|]. intros N1 N2 D. inversion N1; subst.
  constructor.
  - rewrite in_app_iff. intros [I|I]; [contradiction|]. apply (D x); [left; reflexivity | exact I].
  - apply IH; [assumption | assumption |]. intros y I1 I2. apply (D y); [right; exact I1 | exact I2].
Qed.

Lemma NoDup_app_inv {A} (l1 l2 : list A) :
  NoDup (l1 ++ l2) -> NoDup l1 /\ NoDup l2 /\ (forall x, In x l1 -> In x l2 -> False).
Proof.
  induction l1 as [|x l1 IH]; cbn; intros N.
  - split; [constructor | split; [exact N | tauto]].
  - inversion N as [|? ? NI N']; subst. apply IH in N'. destruct N' as (N1 & N2 & D).
    rewrite in_app_iff in NI. split; [constructor; tauto|]. split; [exact N2|].
    intros y [->|I1] I2; [tauto|]. apply (D y I1 I2).
Qed.

Lemma NoDup_flat_map {A B} (f : A -> list B) l :
  NoDup l -> (forall x, In x l -> NoDup (f x)) ->
  (forall x y z, In x l -> In y l -> In z (f x) -> In z (f y) -> x = y) ->
  NoDup (flat_map f l).
Proof.
  induction l as [|x l IH]; cbn; intros ND Hf Hd; [constructor|].
  inversion ND; subst. apply NoDup_app_intro.
  - apply Hf. left. reflexivity.
  - apply IH; [assumption | intros; apply Hf; right; assumption |].
    intros a b z Ia Ib. apply Hd; right; assumption.
  - intros z I1 I2. apply in_flat_map in I2. destruct I2 as (y & Iy & Iz).
    assert (x = y) by (apply (Hd x y z); [left; reflexivity | right; exact Iy | exact I1 | exact Iz]).
    subst. contradiction.
Qed.

Lemma NoDup_map_inj_in {A B} (f : A -> B) l :
  NoDup l -> (forall x y, In x l -> In y l -> f x = f y -> x = y) -> NoDup (map f l).
Proof.
  induction l as [|x l IH]; cbn; intros ND Hi; [constructor|].
  inversion ND; subst. constructor.
  - rewrite in_map_iff. intros (y & E & I).
    assert (y = x) by (apply Hi; [right; exact I | left; reflexivity | exact E]). subst. contradiction.
  - apply IH; [assumption|]. intros a b Ia Ib. apply Hi; right; assumption.
Qed.
