(** Lemmas on strong_components (Tarjan's algorithm). *)
From Coq Require Import Sorted.
From Verif Require Import Base BaseProofs Search SearchSpec SearchProofs SearchProofs2 SearchUsers SearchUsersSpec SearchUsersProofs.
#[local] Arguments dkeys : simpl never.

Section Sorted.
  Variable dt : nat -> nat.
  Definition desc (S : list nat) : Prop := StronglySorted (fun a b => dt b < dt a) S.
  Lemma desc_app S1 : forall S2, desc (S1 ++ S2) -> desc S1 /\ desc S2 /\ forall x y, In x S1 -> In y S2 -> dt y < dt x.
  Proof.
    induction S1 as [|a S1 IH]; intros S2 H; cbn in *; [split; [constructor|split; [exact H|tauto]]|].
    inversion H as [|? ? H1 H2]; subst. destruct (IH S2 H1) as (A & B & C). rewrite Forall_forall in H2. split; [|split].
    - constructor; [exact A|]. apply Forall_forall. intros x X. apply H2, in_or_app. left. exact X.
    - exact B.
    - intros x y [<-|X] Y; [apply H2, in_or_app; right; exact Y|apply C; assumption].
  Qed.
  Lemma desc_NoDup S : desc S -> NoDup S.
  Proof. induction 1 as [|a S H IH F]; constructor; [|exact IH]. intros I. rewrite Forall_forall in F. apply F in I. lia. Qed.
  Lemma desc_inj S x y : desc S -> In x S -> In y S -> dt x = dt y -> x = y.
  Proof.
    induction 1 as [|a S H IH F]; intros I J E; [destruct I|]. rewrite Forall_forall in F. destruct I as [<-|I], J as [<-|J]; auto.
    - apply F in J. lia.
    - apply F in I. lia.
  Qed.
End Sorted.
Lemma desc_ext dt dt' S : (forall x, In x S -> dt' x = dt x) -> desc dt S -> desc dt' S.
Proof.
  intros H. induction 1 as [|a S D IH F]; constructor.
  - apply IH. intros x X. apply H. right. exact X.
  - rewrite Forall_forall in *. intros x X. rewrite !H by (cbn; auto). apply F, X.
Qed.

Section Tarjan.
  Context {E : Type}.
  Variables (out_edges : nat -> list E) (target : E -> nat).
  Notation arc := (arc out_edges target).
  Notation visitor := (tarjan_visitor out_edges target).
  Notation vrun := (vrun out_edges target all_edges).
  Notation eruns := (eruns out_edges target all_edges).
  Notation St := t_stack. Notation dt := t_discover_time. Notation comp := t_component. Notation root := t_root.

  Record TI (c : colors) (st : tarjan) : Prop := {
    ti_desc : desc (dt st) (St st);
    ti_time : forall x, In x (St st) -> dt st x < t_dfs_time st;
    ti_in : forall x, In x (St st) <-> color_of c x <> WHITE /\ comp st x = None;
    ti_gray : forall x, color_of c x = GRAY -> In x (St st) /\ root st x = x;
    ti_root : forall x, In x (St st) -> In (root st x) (St st) /\ steps arc x (root st x) /\ dt st (root st x) <= dt st x;
    ti_reach : forall x, In x (St st) -> exists y, color_of c y = GRAY /\ steps arc x y /\ dt st y <= dt st x;
    ti_order : forall x y, In x (St st) -> In y (St st) -> dt st x <= dt st y -> steps arc x y;
    ti_closed : forall x k, color_of c x <> WHITE -> comp st x = Some k -> k < t_total st /\
      forall y, arc x y -> color_of c y <> WHITE /\ exists k', comp st y = Some k' /\ k' <= k;
    ti_scc : forall x y k k', color_of c x <> WHITE -> color_of c y <> WHITE -> comp st x = Some k -> comp st y = Some k' -> (k = k' <-> connected out_edges target x y);
    ti_ids : forall k, k < t_total st -> exists x, color_of c x <> WHITE /\ comp st x = Some k;
    ti_first : forall x k, color_of c x <> WHITE -> comp st x = Some k -> color_of c (root st x) <> WHITE /\ comp st (root st x) = Some k /\
      forall y, color_of c y <> WHITE -> comp st y = Some k -> dt st (root st x) <= dt st y }.

  Lemma fset_eq {X} (f : nat -> X) k v : fset f k v k = v.
  Proof. unfold fset. rewrite eqb_refl. reflexivity. Qed.
  Lemma fset_neq {X} (f : nat -> X) k v x : x <> k -> fset f k v x = f x.
  Proof. intros N. unfold fset. rewrite (proj2 (eqb_neq x k) N). reflexivity. Qed.
  Lemma gray_eq c v x : color_of (dset c v x) v = x.
  Proof. rewrite color_dset, eqb_refl. reflexivity. Qed.
  Lemma gray_neq c v x w : w <> v -> color_of (dset c v x) w = color_of c w.
  Proof. intros N. rewrite color_dset, (proj2 (eqb_neq w v) N). reflexivity. Qed.

  (** ** discover_vertex *)
  Lemma discover_inv c st v : TI c st -> color_of c v = WHITE -> (forall x, In x (St st) -> steps arc x v) ->
    exists st', visitor (Discover v) st = Ok st' /\ TI (dset c v GRAY) st' /\ St st' = v :: St st /\ t_total st' = t_total st /\
      dt st' v = t_dfs_time st /\ forall x, x <> v -> comp st' x = comp st x /\ root st' x = root st x /\ dt st' x = dt st x.
  Proof.
    intros T W R. eexists. split; [reflexivity|].
    assert (NV : ~ In v (St st)) by (intros I; apply (ti_in _ _ T) in I; tauto).
    assert (NE : forall x, In x (St st) -> x <> v) by (intros x I ->; exact (NV I)).
    assert (NW : forall x, color_of c x <> WHITE -> x <> v) by (intros x I ->; exact (I W)).
    split; [|cbn [t_stack t_total t_discover_time t_component t_root]; split; [reflexivity|]; split; [reflexivity|]; split; [apply fset_eq|]; intros x N; rewrite !fset_neq by exact N; auto].
    constructor; cbn [t_stack t_total t_discover_time t_component t_root t_dfs_time].
    - constructor; [apply (desc_ext (dt st)); [intros x I; apply fset_neq, NE, I|apply (ti_desc _ _ T)]|].
      apply Forall_forall. intros x I. rewrite fset_eq, fset_neq by (apply NE, I). apply (ti_time _ _ T), I.
    - intros x [<-|I]; [rewrite fset_eq; lia|]. rewrite fset_neq by (apply NE, I). apply (ti_time _ _ T) in I. lia.
    - intros x. destruct (eq_dec x v) as [->|N].
      + rewrite gray_eq, fset_eq. split; [intros _; split; [discriminate|reflexivity]|intros _; left; reflexivity].
      + rewrite gray_neq, fset_neq by exact N. rewrite <- (ti_in _ _ T). split; [intros [I|I]; [congruence|exact I]|intros I; right; exact I].
    - intros x. destruct (eq_dec x v) as [->|N]; [intros _; rewrite fset_eq; split; [left; reflexivity|reflexivity]|]. rewrite gray_neq, fset_neq by exact N.
      intros G. apply (ti_gray _ _ T) in G. split; [right; apply G|apply G].
    - intros x [<-|I]; [rewrite !fset_eq; split; [left; reflexivity|split; [constructor|lia]]|]. pose proof (NE x I) as N. destruct (ti_root _ _ T x I) as (A & B & C).
      rewrite (fset_neq (root st)) by exact N. pose proof (NE _ A) as N'. rewrite !fset_neq by assumption. split; [right; exact A|auto].
    - intros x [<-|I].
      + exists v. rewrite gray_eq. split; [reflexivity|]. split; [constructor|lia].
      + destruct (ti_reach _ _ T x I) as (y & A & B & C). assert (N : y <> v) by (intros ->; congruence). exists y. pose proof (NE x I) as N'. rewrite gray_neq, !fset_neq by assumption. auto.
    - intros x y [<-|I] [<-|J].
      + constructor.
      + rewrite fset_eq, fset_neq by (apply NE, J). pose proof (ti_time _ _ T y J). lia.
      + intros _. apply R, I.
      + rewrite !fset_neq by (apply NE; assumption). apply (ti_order _ _ T); assumption.
    - intros x k. destruct (eq_dec x v) as [->|N]; [rewrite fset_eq; discriminate|]. rewrite gray_neq, fset_neq by exact N. intros C K.
      destruct (ti_closed _ _ T x k C K) as (A & B). split; [exact A|]. intros y Y. destruct (B y Y) as (B1 & B2). rewrite gray_neq, fset_neq by (apply NW, B1). auto.
    - intros x y k k'. destruct (eq_dec x v) as [->|N]; [rewrite fset_eq; discriminate|]. destruct (eq_dec y v) as [->|N']; [rewrite fset_eq; discriminate|].
      rewrite !gray_neq, !fset_neq by assumption. apply (ti_scc _ _ T).
    - intros k K. destruct (ti_ids _ _ T k K) as (x & A & B). exists x. rewrite gray_neq, fset_neq by (apply NW, A). auto.
    - intros x k. destruct (eq_dec x v) as [->|N]; [rewrite fset_eq; discriminate|]. rewrite gray_neq, !(fset_neq _ v _ x) by exact N. intros C K.
      destruct (ti_first _ _ T x k C K) as (A & B & D). pose proof (NW _ A) as N'. rewrite gray_neq, !fset_neq by exact N'. split; [exact A|]. split; [exact B|].
      intros y. destruct (eq_dec y v) as [->|NY]; [rewrite fset_eq; discriminate|]. rewrite gray_neq, !fset_neq by exact NY. apply D.
  Qed.

  (** ** the loop on the out-edges *)
  Lemma edges_inv u l : forall st,
    (forall e, In e l -> In e (out_edges u)) ->
    (forall e, In e l -> comp st (target e) = None -> In (target e) (St st)) ->
    (forall x, In x (St st) -> In (root st x) (St st) /\ steps arc x (root st x) /\ dt st (root st x) <= dt st x) -> In u (St st) ->
    let st' := tarjan_edges target u l st in
    t_total st' = t_total st /\ comp st' = comp st /\ dt st' = dt st /\ St st' = St st /\ t_dfs_time st' = t_dfs_time st /\
    (forall x, x <> u -> root st' x = root st x) /\
    (In (root st' u) (St st) /\ steps arc u (root st' u) /\ dt st (root st' u) <= dt st (root st u)) /\
    forall e, In e l -> comp st (target e) = None -> dt st (root st' u) <= dt st (root st (target e)).
  Proof.
    induction l as [|e l IH]; intros st HL HC HR HU; cbv zeta.
    - cbn [tarjan_edges fold_left]. do 6 (split; [reflexivity|]). split; [|intros e []]. destruct (HR u HU) as (A & B & C). auto.
    - unfold tarjan_edges. cbn [fold_left]. destruct (comp st (target e)) as [k|] eqn:CE.
      + change (fold_left _ l st) with (tarjan_edges target u l st).
        destruct (IH st (fun x X => HL x (or_intror X)) (fun x X => HC x (or_intror X)) HR HU) as (H1 & H2 & H3 & H4 & H5 & H6 & H7 & H8).
        repeat (split; [assumption|]). intros x [<-|X] Y; [congruence|apply H8; assumption].
      + set (m := discover_min st (root st u) (root st (target e))). change (fold_left _ l _) with (tarjan_edges target u l (set_root st u m)).
        pose proof (HC e (or_introl eq_refl) CE) as IT. destruct (HR (target e) IT) as (R1 & R2 & R3). destruct (HR u HU) as (U1 & U2 & U3).
        assert (M : In m (St st) /\ steps arc u m /\ dt st m <= dt st (root st u) /\ dt st m <= dt st (root st (target e))).
        { unfold m, discover_min. destruct (Nat.ltb_spec (dt st (root st u)) (dt st (root st (target e)))); [repeat split; auto; lia|]. split; [exact R1|]. split; [|lia].
          econstructor; [|exact R2]. exists e. split; [apply HL; left; reflexivity|reflexivity]. }
        destruct M as (M1 & M2 & M3 & M4).
        destruct (IH (set_root st u m)) as (H1 & H2 & H3 & H4 & H5 & H6 & H7 & H8).
        * intros x X. apply HL. right. exact X.
        * cbn [set_root t_component t_stack]. intros x X. apply HC. right. exact X.
        * cbn [set_root t_stack t_root t_discover_time]. intros x X. destruct (eq_dec x u) as [->|N]; [rewrite fset_eq|rewrite fset_neq by exact N; apply HR, X]. split; [exact M1|]. split; [exact M2|lia].
        * exact HU.
        * cbn [set_root t_total t_component t_discover_time t_stack t_dfs_time t_root] in *. rewrite fset_eq in H7. destruct H7 as (H7a & H7b & H7c).
          repeat (split; [assumption|]). split; [intros x N; rewrite H6 by exact N; apply fset_neq, N|]. split; [split; [exact H7a|split; [exact H7b|lia]]|].
          intros x [<-|X] Y; [lia|]. specialize (H8 x X Y). destruct (eq_dec (target x) u) as [EQ|N]; [|rewrite fset_neq in H8 by exact N; exact H8].
          rewrite EQ in *. rewrite fset_eq in H8. lia.
  Qed.

  (** ** popping a component *)
  Lemma pop_inv u S1 : forall S0 st, ~ In u S1 -> exists st', tarjan_pop u (S1 ++ u :: S0) st = Ok st' /\
    t_total st' = t_total st /\ dt st' = dt st /\ St st' = S0 /\ t_dfs_time st' = t_dfs_time st /\
    (forall x, In x (u :: S1) -> comp st' x = Some (t_total st) /\ root st' x = u) /\ forall x, ~ In x (u :: S1) -> comp st' x = comp st x /\ root st' x = root st x.
  Proof.
    induction S1 as [|v S1 IH]; intros S0 st N; cbn [app tarjan_pop].
    - rewrite eqb_refl. eexists. split; [reflexivity|]. cbn [t_total t_component t_discover_time t_stack t_dfs_time t_root]. repeat (split; [reflexivity|]). split.
      + intros x [<-|[]]. split; apply fset_eq.
      + intros x NI. assert (NE : x <> u) by (intros ->; apply NI; left; reflexivity). rewrite !fset_neq by exact NE. auto.
    - assert (NE : u <> v) by (intros ->; apply N; left; reflexivity). rewrite (proj2 (eqb_neq u v) NE).
      destruct (IH S0 (Tarjan (t_total st) (fset (comp st) v (Some (t_total st))) (fset (root st) v u) (dt st) (S1 ++ u :: S0) (t_dfs_time st))) as (st' & E1 & H1 & H2 & H3 & H4 & H5 & H6).
      { intros I. apply N. right. exact I. }
      exists st'. split; [exact E1|]. cbn [t_total t_component t_discover_time t_dfs_time t_root] in *. repeat (split; [assumption|]). split.
      + intros x X. destruct (in_dec' x (u :: S1)) as [Y|Y]; [apply H5, Y|]. destruct (H6 x Y) as [-> ->]. destruct X as [X|[X|X]]; [destruct Y; left; exact X| |destruct Y; right; exact X].
        subst x. split; apply fset_eq.
      + intros x X. assert (Y : ~ In x (u :: S1)) by (intros [I|I]; apply X; [left; exact I|right; right; exact I]). assert (Z : x <> v) by (intros ->; apply X; right; left; reflexivity).
        destruct (H6 x Y) as [-> ->]. rewrite !fset_neq by exact Z. auto.
  Qed.

  (** ** finish_vertex *)
  Lemma finish_inv c st u S1 S0 : TI c st -> color_of c u = GRAY -> St st = S1 ++ u :: S0 -> (forall x, In x S1 -> color_of c x = BLACK) ->
    (forall x y, In x (u :: S1) -> arc x y -> color_of c y <> WHITE) ->
    (forall x y, In x S1 -> arc x y -> In y (St st) -> exists e, In e (out_edges u) /\ In (target e) (St st) /\ dt st (root st (target e)) <= dt st y) ->
    exists st', visitor (Finish u) st = Ok st' /\ TI (dset c u BLACK) st' /\ dt st' = dt st /\
      (forall x, ~ In x (u :: S1) -> comp st' x = comp st x /\ root st' x = root st x) /\
      (St st' = S0 \/ St st' = S1 ++ u :: S0 /\ forall x y, In x (u :: S1) -> arc x y -> In y (St st') -> dt st' (root st' u) <= dt st' y).
  Proof.
    intros T GU ES B1 NW Q.
    assert (IU : In u (St st)) by (rewrite ES; apply in_or_app; right; left; reflexivity).
    pose proof (ti_desc _ _ T) as DS. rewrite ES in DS.
    destruct (desc_app _ _ _ DS) as (_ & DS2 & L10). pose proof (desc_NoDup _ _ DS) as ND.
    assert (NU : ~ In u S1). { intros I. apply B1 in I. congruence. }
    assert (LU0 : forall y, In y S0 -> dt st y < dt st u). { inversion DS2 as [|? ? _ F]; subst. rewrite Forall_forall in F. exact F. }
    assert (L1U : forall x, In x S1 -> dt st u < dt st x). { intros x X. apply L10; [exact X|left; reflexivity]. }
    assert (INS : forall x, In x (St st) <-> In x (u :: S1) \/ In x S0). { intros x. rewrite ES, in_app_iff. cbn. tauto. }
    assert (LC : forall x y, In x (u :: S1) -> In y S0 -> dt st y < dt st x). { intros x y [<-|X] Y; [apply LU0, Y|]. apply L10; [exact X|right; exact Y]. }
    assert (GEC : forall x, In x (u :: S1) -> dt st u <= dt st x). { intros x [<-|X]; [lia|]. apply L1U in X. lia. }
    assert (OLDN : forall x, In x (u :: S1) -> comp st x = None). { intros x X. apply (ti_in _ _ T). apply INS. left. exact X. }
    destruct (edges_inv u (out_edges u) st) as (H1 & H2 & H3 & H4 & H5 & H6 & (H7a & H7b & H7c) & H8).
    { auto. }
    { intros e I N. apply (ti_in _ _ T). split; [|exact N]. apply (NW u); [left; reflexivity|]. exists e. auto. }
    { apply (ti_root _ _ T). }
    { exact IU. }
    cbn [tarjan_visitor]. set (st1 := tarjan_edges target u (out_edges u) st) in *.
    pose proof (proj2 (ti_gray _ _ T u GU)) as RU. rewrite RU in H7c.
    (* the root found is the lowest *)
    assert (LOW : forall x y, In x (u :: S1) -> arc x y -> In y (St st) -> dt st (root st1 u) <= dt st y).
    { intros x y [<-|X] (e & I & <-) Y.
      - pose proof (proj1 (ti_in _ _ T _) Y) as [_ N]. pose proof (H8 e I N). pose proof (proj2 (proj2 (ti_root _ _ T _ Y))). lia.
      - destruct (Q x (target e) X (ex_intro _ e (conj I eq_refl)) Y) as (e' & I' & Y' & L). pose proof (proj1 (ti_in _ _ T _) Y') as [_ N]. pose proof (H8 e' I' N). lia. }
    assert (COL : forall x, x <> u -> color_of (dset c u BLACK) x = color_of c x) by (intros x N; apply gray_neq, N).
    assert (CNW : forall x, color_of (dset c u BLACK) x <> WHITE <-> color_of c x <> WHITE).
    { intros x. destruct (eq_dec x u) as [->|N]; [rewrite gray_eq, GU; split; intros _; discriminate|rewrite COL by exact N; reflexivity]. }
    assert (CGR : forall x, color_of (dset c u BLACK) x = GRAY <-> color_of c x = GRAY /\ x <> u).
    { intros x. destruct (eq_dec x u) as [->|N]; [rewrite gray_eq; split; [discriminate|tauto]|rewrite COL by exact N; tauto]. }
    destruct (eqb_spec (root st1 u) u) as [RE|RN].
    - (* a component *)
      rewrite H4, ES. destruct (pop_inv u S1 S0 st1 NU) as (st2 & -> & P1 & P2 & P3 & P4 & P5r & P6). cbn [rbind]. rewrite H1, H2, H3, H5 in *.
      pose proof (fun x I => proj1 (P5r x I)) as P5. pose proof (fun x I => proj2 (P5r x I)) as P5'.
      eexists. split; [reflexivity|]. rewrite RE in LOW.
      assert (P6' : forall x, ~ In x (u :: S1) -> comp st2 x = comp st x /\ root st2 x = root st x).
      { intros x N. destruct (P6 x N) as [A B]. split; [exact A|]. rewrite B. apply H6. intros ->. apply N. left. reflexivity. }
      (* edges leaving the component reach assigned vertices *)
      assert (ARC : forall x y, In x (u :: S1) -> arc x y -> In y (u :: S1) \/ exists k, comp st y = Some k).
      { intros x y X A. destruct (comp st y) as [k|] eqn:CY; [right; exists k; reflexivity|]. left. assert (Y : In y (St st)) by (apply (ti_in _ _ T); split; [apply (NW x y X A)|exact CY]).
        pose proof (LOW x y X A Y) as L. apply INS in Y. destruct Y as [Y|Y]; [exact Y|]. apply LU0 in Y. lia. }
      assert (OLD : forall x y, color_of c x <> WHITE -> (exists k, comp st x = Some k) -> steps arc x y -> color_of c y <> WHITE /\ exists k, comp st y = Some k).
      { intros x y C K S. induction S as [x|x y z A S IH]; [auto|]. destruct K as (k & K). destruct (proj2 (ti_closed _ _ T x k C K) y A) as (C' & k' & K' & _). apply IH; [exact C'|exists k'; exact K']. }
      assert (STEPS : forall x y, In x (u :: S1) -> steps arc x y -> In y (u :: S1) \/ exists k, comp st y = Some k).
      { intros x y X S. induction S as [x|x y z A S IH]; [left; exact X|]. destruct (ARC x y X A) as [Y|Y]; [apply IH, Y|]. right. apply (OLD y z); [apply (NW x y X A)|exact Y|exact S]. }
      assert (CONN : forall x, In x (u :: S1) -> steps arc u x /\ steps arc x u).
      { intros x X. assert (XS : In x (St st)) by (apply INS; left; exact X). split; [apply (ti_order _ _ T); [exact IU|exact XS|apply GEC, X]|].
        destruct (ti_reach _ _ T x XS) as (y & G & S & L). pose proof (proj1 (ti_gray _ _ T y G)) as Y. apply INS in Y. destruct Y as [[<-|Y]|Y]; [exact S|apply B1 in Y; congruence|].
        exfalso. destruct (STEPS x y X S) as [Z|(k & Z)].
        - pose proof (LC y y Z Y). lia.
        - assert (Y' : In y (St st)) by (apply INS; right; exact Y). apply (ti_in _ _ T) in Y'. destruct Y'. congruence. }
      assert (S0C : forall x, In x S0 -> ~ In x (u :: S1)). { intros x X Y. pose proof (LC x x Y X). lia. }
      assert (KOLD : forall x k, ~ In x (u :: S1) -> comp st2 x = Some k -> comp st x = Some k). { intros x k N K. rewrite <- (proj1 (P6' x N)). exact K. }
      assert (KNEW : forall x k, comp st x = Some k -> comp st2 x = Some k). { intros x k K. assert (N : ~ In x (u :: S1)) by (intros I; apply OLDN in I; congruence). rewrite (proj1 (P6' x N)). exact K. }
      split; [|cbn [t_discover_time t_component t_root t_stack]; split; [exact P2|split; [exact P6'|left; exact P3]]].
      constructor; cbn [t_stack t_total t_discover_time t_component t_root t_dfs_time]; rewrite ?P1, ?P2, ?P3, ?P4.
      + inversion DS2; assumption.
      + intros x X. apply (ti_time _ _ T), INS. right. exact X.
      + intros x. rewrite CNW. split.
        * intros X. rewrite (proj1 (P6' x (S0C x X))). apply (ti_in _ _ T), INS. right. exact X.
        * intros [C N]. destruct (in_dec' x (u :: S1)) as [I|I]; [rewrite (P5 x I) in N; discriminate|]. rewrite (proj1 (P6' x I)) in N.
          assert (X : In x (St st)) by (apply (ti_in _ _ T); auto). apply INS in X. tauto.
      + intros x G. apply CGR in G. destruct G as [G N]. destruct (ti_gray _ _ T x G) as [I R]. apply INS in I. destruct I as [[I|I]|I]; [congruence|apply B1 in I; congruence|].
        split; [exact I|]. rewrite (proj2 (P6' x (S0C x I))). exact R.
      + intros x X. destruct (ti_root _ _ T x) as (A & B & C); [apply INS; right; exact X|]. rewrite (proj2 (P6' x (S0C x X))). split; [|auto].
        apply INS in A. destruct A as [A|A]; [|exact A]. pose proof (LC _ _ A X). lia.
      + intros x X. destruct (ti_reach _ _ T x) as (y & A & B & C); [apply INS; right; exact X|]. exists y. split; [|auto]. apply CGR. split; [exact A|]. intros ->. apply LU0 in X. lia.
      + intros x y X Y. apply (ti_order _ _ T); apply INS; right; assumption.
      + intros x k. rewrite CNW. intros C K. destruct (in_dec' x (u :: S1)) as [I|I].
        * rewrite (P5 x I) in K. injection K as <-. split; [lia|]. intros y A. rewrite CNW. split; [apply (NW x y I A)|].
          destruct (ARC x y I A) as [Y|(k & Y)]; [exists (t_total st); split; [apply P5, Y|lia]|]. exists k. split; [apply KNEW, Y|].
          pose proof (proj1 (ti_closed _ _ T y k (NW x y I A) Y)). lia.
        * apply (KOLD x k I) in K. destruct (ti_closed _ _ T x k C K) as (L & H). split; [lia|]. intros y A. destruct (H y A) as (C' & k' & K' & L'). rewrite CNW. split; [exact C'|].
          exists k'. split; [apply KNEW, K'|exact L'].
      + intros x y k k'. rewrite !CNW. intros CX CY KX KY. destruct (in_dec' x (u :: S1)) as [I|I], (in_dec' y (u :: S1)) as [J|J].
        * rewrite (P5 x I) in KX. rewrite (P5 y J) in KY. destruct (CONN x I), (CONN y J). split; [|congruence]. intros _. split; eapply steps_trans; eassumption.
        * rewrite (P5 x I) in KX. injection KX as <-. apply (KOLD y k' J) in KY. pose proof (proj1 (ti_closed _ _ T y k' CY KY)). split; [lia|]. intros [_ S]. exfalso.
          destruct (OLD y x CY (ex_intro _ k' KY) S) as (_ & k & K). rewrite (OLDN x I) in K. discriminate.
        * rewrite (P5 y J) in KY. injection KY as <-. apply (KOLD x k I) in KX. pose proof (proj1 (ti_closed _ _ T x k CX KX)). split; [lia|]. intros [S _]. exfalso.
          destruct (OLD x y CX (ex_intro _ k KX) S) as (_ & k' & K). rewrite (OLDN y J) in K. discriminate.
        * apply (ti_scc _ _ T); auto.
      + intros k L. destruct (Nat.eq_dec k (t_total st)) as [->|N].
        * exists u. split; [rewrite gray_eq; discriminate|]. apply P5. left. reflexivity.
        * destruct (ti_ids _ _ T k) as (x & C & K); [lia|]. exists x. rewrite CNW. split; [exact C|apply KNEW, K].
      + intros x k. rewrite CNW. intros C K. destruct (in_dec' x (u :: S1)) as [I|I].
        * rewrite (P5 x I) in K. injection K as <-. rewrite (P5' x I), CNW. split; [rewrite GU; discriminate|]. split; [apply P5; left; reflexivity|].
          intros y. rewrite CNW. intros CY KY. destruct (in_dec' y (u :: S1)) as [J|J]; [apply GEC, J|]. apply (KOLD y _ J) in KY. pose proof (proj1 (ti_closed _ _ T y _ CY KY)). lia.
        * apply (KOLD x k I) in K. destruct (ti_first _ _ T x k C K) as (A & B & D). rewrite (proj2 (P6' x I)), CNW. split; [exact A|]. split; [apply KNEW, B|].
          intros y. rewrite CNW. intros CY KY. destruct (in_dec' y (u :: S1)) as [J|J]; [|apply D; [exact CY|apply (KOLD y k J), KY]].
          rewrite (P5 y J) in KY. injection KY as <-. pose proof (proj1 (ti_closed _ _ T x _ C K)). lia.
    - (* no component yet *)
      exists st1. split; [reflexivity|].
      assert (LT : dt st (root st1 u) < dt st u).
      { assert (NE : dt st (root st1 u) <> dt st u); [|lia]. intros EQ. apply RN. apply (desc_inj (dt st) (St st)); [apply (ti_desc _ _ T)|exact H7a|exact IU|exact EQ]. }
      split; [|split; [exact H3|split; [|right; split; [rewrite H4; exact ES|]]]].
      + constructor; rewrite ?H1, ?H2, ?H3, ?H4, ?H5.
        * apply (ti_desc _ _ T).
        * apply (ti_time _ _ T).
        * intros x. rewrite CNW. apply (ti_in _ _ T).
        * intros x G. apply CGR in G. destruct G as [G N]. rewrite H6 by exact N. apply (ti_gray _ _ T), G.
        * intros x X. destruct (eq_dec x u) as [->|N]; [split; [exact H7a|split; [exact H7b|lia]]|]. rewrite H6 by exact N. apply (ti_root _ _ T), X.
        * intros x X. destruct (ti_reach _ _ T x X) as (y & A & B & C). destruct (eq_dec y u) as [->|N].
          -- destruct (ti_reach _ _ T _ H7a) as (z & A' & B' & C'). exists z. split; [apply CGR; split; [exact A'|intros ->; lia]|]. split; [|lia].
             eapply steps_trans; [exact B|]. eapply steps_trans; [exact H7b|exact B'].
          -- exists y. split; [apply CGR; auto|auto].
        * apply (ti_order _ _ T).
        * intros x k. rewrite CNW. intros C K. destruct (ti_closed _ _ T x k C K) as (A & B). split; [exact A|]. intros y Y. rewrite CNW. apply B, Y.
        * intros x y k k'. rewrite !CNW. apply (ti_scc _ _ T).
        * intros k K. destruct (ti_ids _ _ T k K) as (x & A & B). exists x. rewrite CNW. auto.
        * intros x k. rewrite CNW. intros C K. assert (N : x <> u) by (intros ->; rewrite (OLDN u (or_introl eq_refl)) in K; discriminate).
          destruct (ti_first _ _ T x k C K) as (A & B & D). rewrite (H6 x N), CNW. split; [exact A|]. split; [exact B|]. intros y. rewrite CNW. apply D.
      + intros x N. rewrite H2. split; [reflexivity|]. apply H6. intros ->. apply N. left. reflexivity.
      + rewrite H3, H4. exact LOW.
  Qed.

  (** ** the search *)
  Lemma asks_calls a st : Forall is_ask a -> calls visitor a st = Ok st.
  Proof. induction 1 as [|x a H F IH]; [reflexivity|]. destruct x; try destruct H. exact IH. Qed.
  Definition same_out (D : list nat) (st st' : tarjan) : Prop := forall x, ~ In x D -> comp st' x = comp st x /\ root st' x = root st x /\ dt st' x = dt st x.

  Lemma tarjan_run :
    (forall v c a t c', vrun v c a t c' -> forall st, TI c st -> (forall x, In x (St st) -> steps arc x v) ->
      exists st', calls visitor t st = Ok st' /\ TI c' st' /\ same_out (discovered t) st st' /\
        (St st' = St st \/ exists S1, St st' = S1 ++ v :: St st /\ incl S1 (discovered t) /\
          forall x y, In x (discovered t) -> In x (St st') -> arc x y -> In y (St st') -> dt st' (root st' v) <= dt st' y)) /\
    (forall u es c t c', eruns u es c t c' -> incl es (out_edges u) -> forall st, TI c st -> color_of c u = GRAY -> (forall y, color_of c y = GRAY -> dt st y <= dt st u) ->
      exists st', calls visitor t st = Ok st' /\ TI c' st' /\ same_out (discovered t) st st' /\
        (exists S1, St st' = S1 ++ St st /\ incl S1 (discovered t)) /\
        forall x y, In x (discovered t) -> In x (St st') -> arc x y -> In y (St st') -> exists e, In e es /\ In (target e) (St st') /\ dt st' (root st' (target e)) <= dt st' y).
  Proof.
    assert (NXT : forall x y, arc x y -> next out_edges target all_edges x y) by (intros x y; apply next_all).
    apply run_ind.
    - intros v c a t c' A W R IH st T RV.
      pose proof (proj2 (run_facts out_edges target all_edges) _ _ _ _ _ R) as F. destruct (proj2 (run_closed out_edges target all_edges) _ _ _ _ _ R) as [CL1 CL2].
      destruct (discover_inv c st v T W RV) as (st1 & D1 & T1 & SS1 & _ & DT1 & O1).
      assert (NVD : ~ In v (discovered t)). { intros I. apply (f_disc _ _ _ F) in I. rewrite gray_eq in I. destruct I; discriminate. }
      assert (SV : forall x, In x (St st) -> x <> v). { intros x I ->. apply (ti_in _ _ T) in I. tauto. }
      assert (I1 : incl (u_edges out_edges all_edges v) (out_edges v)) by (rewrite u_edges_all; apply incl_refl).
      assert (G1 : forall y, color_of (dset c v GRAY) y = GRAY -> dt st1 y <= dt st1 v).
      { intros y G. rewrite DT1. destruct (eq_dec y v) as [->|N]; [rewrite DT1; lia|]. destruct (O1 y N) as (_ & _ & ->). rewrite gray_neq in G by exact N.
        pose proof (ti_time _ _ T y (proj1 (ti_gray _ _ T y G))). lia. }
      destruct (IH I1 st1 T1 (gray_eq c v GRAY) G1) as (st2 & E2 & T2 & O2 & (S1 & SS2 & IS) & Q).
      assert (GV : color_of c' v = GRAY). { rewrite (f_other _ _ _ F v NVD). apply gray_eq. }
      rewrite SS1 in SS2. rewrite u_edges_all in Q.
      destruct (finish_inv c' st2 v S1 (St st) T2 GV SS2) as (st3 & E3 & T3 & DT3 & O3 & SS3).
      { intros x X. apply IS in X. apply (f_disc _ _ _ F), X. }
      { intros x y [<-|X] AR; [|apply (CL2 x y (IS x X) (NXT _ _ AR))]. destruct AR as (e & I & <-). apply CL1. rewrite u_edges_all. exact I. }
      { intros x y X AR Y. apply (Q x y); auto. rewrite SS2. apply in_or_app. left. exact X. }
      exists st3. destruct (vproj v a t A) as (P1 & _). rewrite P1.
      split.
      { change (Discover v :: a ++ t ++ [Finish v]) with ([Discover v] ++ a ++ t ++ [Finish v]). rewrite calls_app. cbn [calls]. rewrite D1. cbn [rbind].
        rewrite calls_app, (asks_calls a st1 A). cbn [rbind]. rewrite calls_app, E2. cbn [rbind calls]. rewrite E3. reflexivity. }
      split; [exact T3|]. split.
      { intros x N. assert (N1 : x <> v) by (intros ->; apply N; left; reflexivity). assert (N2 : ~ In x (discovered t)) by (intros I; apply N; right; exact I).
        destruct (O1 x N1) as (A1 & A2 & A3). destruct (O2 x N2) as (B1 & B2 & B3). destruct (O3 x) as (C1 & C2); [intros [I|I]; [congruence|apply N2, IS, I]|]. rewrite DT3. split; [congruence|split; congruence]. }
      destruct SS3 as [SS3|[SS3 LOW]]; [left; exact SS3|]. right. exists S1. split; [exact SS3|]. split; [intros x X; right; apply IS, X|].
      intros x y X XS AR Y. apply (LOW x y); [|exact AR|exact Y]. destruct X as [X|X]; [left; exact X|]. right. rewrite SS3 in XS. apply in_app_or in XS.
      destruct XS as [XS|[<-|XS]]; [exact XS|destruct (NVD X)|]. exfalso. apply (f_disc _ _ _ F) in X. destruct X as [X _]. rewrite gray_neq in X by (apply SV, XS).
      apply (ti_in _ _ T) in XS. tauto.
    - intros u c _ st T G GL. exists st. split; [reflexivity|]. split; [exact T|]. split; [intros x _; auto|]. split; [exists []; split; [reflexivity|intros x []]|]. intros x y [].
    - intros u e es c t1 c1 t2 c2 W V1 IA V2 IB I st T G GL.
      pose proof (proj1 (run_facts out_edges target all_edges) _ _ _ _ _ V1) as F1. pose proof (proj2 (run_facts out_edges target all_edges) _ _ _ _ _ V2) as F2.
      pose proof (proj1 (run_closed out_edges target all_edges) _ _ _ _ _ V1) as CL1.
      assert (AE : arc u (target e)) by (exists e; split; [apply I; left; reflexivity|reflexivity]).
      destruct (IA st T) as (st1 & E1 & T1 & O1 & SH1).
      { intros x X. destruct (ti_reach _ _ T x X) as (y & Gy & Sy & Ly). eapply steps_trans; [exact Sy|]. eapply steps_trans; [|apply steps_one, AE].
        apply (ti_order _ _ T); [apply (ti_gray _ _ T y Gy)|apply (ti_gray _ _ T u G)|apply GL, Gy]. }
      assert (ND1 : forall y, color_of c y <> WHITE -> ~ In y (discovered t1)). { intros y N X. apply (f_disc _ _ _ F1) in X. tauto. }
      assert (GC : color_of c1 u = GRAY). { rewrite (f_other _ _ _ F1); [exact G|]. apply ND1. rewrite G. discriminate. }
      destruct (IB (fun x X => I x (or_intror X)) st1 T1 GC) as (st2 & E2 & T2 & O2 & (S2 & SS2 & IS2) & Q2).
      { intros y Gy. assert (NY : ~ In y (discovered t1)). { intros X. apply (f_disc _ _ _ F1) in X. destruct X; congruence. }
        assert (NU : ~ In u (discovered t1)) by (apply ND1; rewrite G; discriminate).
        destruct (O1 y NY) as (_ & _ & ->). destruct (O1 u NU) as (_ & _ & ->). apply GL. rewrite <- (f_other _ _ _ F1 y NY). exact Gy. }
      exists st2. destruct (tproj e t1 _ t2 (asks_ask out_edges u)) as (P1 & _). rewrite P1. split.
      { change (Examine e :: Tree e :: t1 ++ asks out_edges u ++ t2) with ([Examine e; Tree e] ++ t1 ++ asks out_edges u ++ t2). rewrite calls_app. cbn [calls tarjan_visitor rbind].
        rewrite calls_app, E1. cbn [rbind]. rewrite calls_app, (asks_calls _ st1 (asks_ask out_edges u)). cbn [rbind]. exact E2. }
      split; [exact T2|]. split.
      { intros x N. rewrite in_app_iff in N. destruct (O1 x) as (A1 & A2 & A3); [tauto|]. destruct (O2 x) as (B1 & B2 & B3); [tauto|]. split; [congruence|split; congruence]. }
      split.
      { destruct SH1 as [SH1|(S1 & SH1 & IS1 & _)]; rewrite SH1 in SS2.
        - exists S2. split; [exact SS2|]. intros x X. apply in_or_app. right. apply IS2, X.
        - exists (S2 ++ S1 ++ [target e]). rewrite <- !app_assoc. split; [exact SS2|]. intros x X. apply in_app_or in X. destruct X as [X|X]; [apply in_or_app; right; apply IS2, X|].
          apply in_or_app. left. apply in_app_or in X. destruct X as [X|[<-|[]]]; [apply IS1, X|].
          rewrite (proj1 (proj2 (proj1 (run_edges out_edges target all_edges) _ _ _ _ _ V1))). left. reflexivity. }
      intros x y X XS AR Y. apply in_app_or in X. destruct X as [X|X].
      + assert (D2 : forall z, color_of c1 z <> WHITE -> ~ In z (discovered t2)). { intros z N Z. apply (f_disc _ _ _ F2) in Z. tauto. }
        assert (DOWN : forall z, color_of c1 z <> WHITE -> In z (St st2) -> In z (St st1)). { intros z N Z. rewrite SS2 in Z. apply in_app_or in Z. destruct Z as [Z|Z]; [destruct (D2 z N); apply IS2, Z|exact Z]. }
        assert (CX : color_of c1 x <> WHITE) by (rewrite (proj2 (f_disc _ _ _ F1 x X)); discriminate).
        assert (CY : color_of c1 y <> WHITE) by (apply (CL1 x y X (NXT _ _ AR))).
        pose proof (DOWN x CX XS) as XS1. pose proof (DOWN y CY Y) as Y1. destruct SH1 as [SH1|(S1 & SH1 & IS1 & LOW)].
        * exfalso. rewrite SH1 in XS1. apply (ti_in _ _ T) in XS1. apply (ND1 x (proj1 XS1) X).
        * exists e. split; [left; reflexivity|]. assert (ET : In (target e) (St st1)) by (rewrite SH1; apply in_or_app; right; left; reflexivity).
          split; [rewrite SS2; apply in_or_app; right; exact ET|].
          assert (NW : forall z, In z (St st1) -> ~ In z (discovered t2)). { intros z Z. apply D2. apply (ti_in _ _ T1) in Z. apply Z. }
          destruct (O2 (target e) (NW _ ET)) as (_ & -> & _). destruct (O2 y (NW _ Y1)) as (_ & _ & ->). destruct (O2 (root st1 (target e))) as (_ & _ & ->).
          { apply NW. apply (ti_root _ _ T1 _ ET). }
          apply (LOW x y X XS1 AR Y1).
      + destruct (Q2 x y X XS AR Y) as (e' & I' & H'). exists e'. split; [right; exact I'|exact H'].
    - intros u e es c t c' C V IB I st T G GL. destruct (IB (fun x X => I x (or_intror X)) st T G GL) as (st' & A1 & A2 & A3 & A4 & A5). exists st'.
      split; [exact A1|]. split; [exact A2|]. split; [exact A3|]. split; [exact A4|]. intros x y X XS AR Y. destruct (A5 x y X XS AR Y) as (e' & I' & H'). exists e'. split; [right; exact I'|exact H'].
    - intros u e es c t c' C V IB I st T G GL. destruct (IB (fun x X => I x (or_intror X)) st T G GL) as (st' & A1 & A2 & A3 & A4 & A5). exists st'.
      split; [exact A1|]. split; [exact A2|]. split; [exact A3|]. split; [exact A4|]. intros x y X XS AR Y. destruct (A5 x y X XS AR Y) as (e' & I' & H'). exists e'. split; [right; exact I'|exact H'].
  Qed.

  Lemma tarjan_sruns' l c t c' : sruns out_edges target all_edges l c t c' -> settled out_edges target all_edges c -> forall st, TI c st ->
    exists st', calls visitor t st = Ok st' /\ TI c' st' /\ settled out_edges target all_edges c' /\ forall x, ~ In x (discovered t) -> comp st' x = comp st x.
  Proof.
    induction 1 as [c|u l c t c1 t' c2 W V R IH|u l c t c' W R IH]; intros SE st T.
    - exists st. auto.
    - destruct (proj1 tarjan_run _ _ _ _ _ V st T) as (st1 & E1 & T1 & O1 & _).
      { intros x X. destruct (ti_reach _ _ T x X) as (y & G & _). destruct (proj1 SE y G). }
      destruct (IH (vrun_settled _ _ _ _ _ _ _ _ V SE) st1 T1) as (st2 & E2 & T2 & S2 & O2). exists st2. split.
      { change ((Start u :: t) ++ t') with ([Start u] ++ t ++ t'). rewrite calls_app. cbn [calls tarjan_visitor rbind]. rewrite calls_app, E1. exact E2. }
      split; [exact T2|]. split; [exact S2|]. intros x N. change (discovered ((Start u :: t) ++ t')) with (discovered (t ++ t')) in N. rewrite disc_app, in_app_iff in N.
      rewrite (O2 x) by tauto. apply O1. tauto.
    - apply IH; assumption.
  Qed.
  Lemma tarjan_sruns l c t c' : sruns out_edges target all_edges l c t c' -> settled out_edges target all_edges c -> forall st, TI c st ->
    exists st', calls visitor t st = Ok st' /\ TI c' st' /\ settled out_edges target all_edges c'.
  Proof. intros R S st T. destruct (tarjan_sruns' l c t c' R S st T) as (st' & A & B & C & _). exists st'. auto. Qed.
  Lemma TI_init component : TI [] (Tarjan 0 component (fun _ => 0) (fun _ => 0) [] 0).
  Proof.
    assert (W : forall x, color_of [] x = WHITE) by reflexivity.
    constructor; cbn [t_stack t_total t_discover_time t_component t_root t_dfs_time]; try (intros x; try intros y; rewrite ?W; cbn; intros; exfalso; (contradiction || congruence || lia)).
    - constructor.
    - intros x. rewrite W. cbn. tauto.
  Qed.
End Tarjan.
