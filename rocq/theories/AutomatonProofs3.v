(** IncidenceNodeAutomaton and make_automaton. *)
From Verif Require Import Base BaseProofs Graph GraphProofs Automaton AutomatonSpec AutomatonProofs AutomatonProofs2.
#[local] Arguments dkeys : simpl never.

Section NA.
  Context {A : Type} {EA : EqDec A}.

  Definition nrep (g : naut A) (s : nspec A) : Prop :=
    (na_last g = ns_next s /\ dkeys (na_adj g) = ns_V s /\ twf (na_adj g) /\ trep (na_adj g) (ns_T s)) /\
    ((forall q, na_symbol g q = ns_sym s q) /\ NoDup (dkeys (na_pred g)) /\
     (forall r, NoDup (preds_of (na_pred g) r)) /\
     (forall q r, In q (preds_of (na_pred g) r) <-> In (Edge q r (ns_sym s r)) (ns_T s))) /\
    (forall e, In e (ns_T s) -> distinguisher e = ns_sym s (target e) /\ In (source e) (ns_V s) /\ In (target e) (ns_V s)) /\
    (forall v, In v (ns_V s) -> v < ns_next s).

  Lemma preds_dset p r l r' : preds_of (dset p r l) r' = if r' =? r then l else preds_of p r'.
  Proof. unfold preds_of. rewrite dget_dset. destruct (eqb_spec r' r), (Nat.eqb_spec r' r); congruence. Qed.
  Lemma preds_ddel p r r' : NoDup (dkeys p) -> preds_of (ddel p r) r' = if r' =? r then [] else preds_of p r'.
  Proof. intros N. unfold preds_of. rewrite dget_ddel by exact N. destruct (eqb_spec r' r), (Nat.eqb_spec r' r); congruence. Qed.

  Lemma NA_in_edges_perm g s r : nrep g s ->
    Permutation (INA_in_edges g r) (filter (fun e => target e =? r) (NA_edges g)).
  Proof.
    intros ((_ & _ & W & T) & (Sy & _ & ND & P) & C & _). apply NoDup_Permutation.
    - apply NoDup_map_inj_in; [apply ND|]. intros x y _ _ [= ->]. reflexivity.
    - apply NoDup_filter. apply (NoDup_tedges _ W).
    - intros [q r' a]. unfold INA_in_edges. rewrite in_map_iff, filter_In. cbn.
      change (NA_edges g) with (tedges (na_adj g)). rewrite (In_tedges _ _ _ _ W), <- (proj2 T). split.
      + intros (q' & [= -> <- <-] & I). apply P in I. rewrite Sy. rewrite Nat.eqb_refl. tauto.
      + intros [I E]. apply Nat.eqb_eq in E. subst r'. pose proof (C _ I) as (D & _). cbn in D. subst a.
        exists q. rewrite Sy. split; [reflexivity|]. apply P. exact I.
  Qed.

  Lemma out_preds_spec q (L : list nat) : forall p : dict nat (list nat), NoDup (dkeys p) ->
    (forall r, NoDup (preds_of p r)) ->
    let p' := fold_left (fun p r => if mem q (preds_of p r) then dset p r (srem q (preds_of p r)) else p) L p in
    NoDup (dkeys p') /\ (forall r, NoDup (preds_of p' r)) /\
    forall r x, In x (preds_of p' r) <-> In x (preds_of p r) /\ ~ (x = q /\ In r L).
  Proof.
    induction L as [|r0 L IH]; intros p N ND; cbn.
    - split; [exact N|]. split; [exact ND|]. intros. tauto.
    - set (p1 := if mem q (preds_of p r0) then dset p r0 (srem q (preds_of p r0)) else p).
      assert (H1 : NoDup (dkeys p1) /\ (forall r, NoDup (preds_of p1 r)) /\
        forall r x, In x (preds_of p1 r) <-> In x (preds_of p r) /\ ~ (x = q /\ r = r0)).
      { unfold p1. destruct (mem_reflect q (preds_of p r0)) as [I|NI].
        - split; [apply NoDup_dset; exact N|]. split.
          + intros r. rewrite preds_dset. destruct (r =? r0); [apply NoDup_srem|]; apply ND.
          + intros r x. rewrite preds_dset. destruct (Nat.eqb_spec r r0) as [->|Nr]; [rewrite In_srem|]; tauto.
        - split; [exact N|]. split; [exact ND|]. intros r x. split; [|tauto]. intros J. split; [exact J|].
          intros [-> ->]. contradiction. }
      destruct H1 as (N1 & ND1 & I1). destruct (IH p1 N1 ND1) as (N2 & ND2 & I2).
      split; [exact N2|]. split; [exact ND2|]. intros r x. rewrite I2, I1. intuition congruence.
  Qed.

  Lemma ndel_spec (sym : option A) r0 (L : list nat) : forall m, twf m -> NoDup L ->
    (forall p, In p L -> tr m p sym = Some r0) ->
    exists m', foreach (fun m p => ndel_adj m p sym) m L = (m', Ok tt) /\ twf m' /\ dkeys m' = dkeys m /\
      forall q b r, tr m' q b = Some r <-> tr m q b = Some r /\ ~ (In q L /\ b = sym).
  Proof.
    induction L as [|p L IH]; intros m W ND I; cbn.
    - exists m. split; [reflexivity|]. split; [exact W|]. split; [reflexivity|]. intros. tauto.
    - destruct (del_adj_spec m p sym r0 W) as (m1 & E1 & W1 & K1 & T1).
      { apply I. left. reflexivity. }
      change (ndel_adj m p sym) with (del_adj m p sym). rewrite E1.
      inversion ND as [|? ? NI ND']; subst.
      assert (T1' : forall q b r, tr m1 q b = Some r <-> tr m q b = Some r /\ ~ (q = p /\ b = sym)).
      { intros q b r. rewrite T1. destruct (same_key_spec q b (Edge p 0 sym)) as [[X Y]|Nk]; cbn in *.
        - subst. split; [discriminate|tauto].
        - split; [|tauto]. intros E. split; [exact E|]. intros [-> ->]. tauto. }
      destruct (IH m1 W1 ND') as (m2 & -> & W2 & K2 & T2).
      { intros p' Ip. apply T1'. split; [apply I; right; exact Ip|]. intros [-> _]. contradiction. }
      exists m2. split; [reflexivity|]. split; [exact W2|]. split; [congruence|].
      intros q b r. rewrite T2, T1'. split; [intros [[X Y] Z]; split; [exact X|]; intros [[<-|J] ->]; tauto | intros [X Y]; split; [split; [exact X|]|]; intros [? ->]; subst; tauto].
  Qed.

  Lemma NA_step g s op : nrep g s -> ns_disciplined s op ->
    nrep (fst (INA_call g op)) (fst (ns_step s op)) /\ snd (INA_call g op) = snd (ns_step s op).
  Proof.
    destruct s as [k V T sym]. intros RR. pose proof RR as ((HL & KV & W & R) & (Sy & Np & NDp & P) & C & LT).
    cbn [ns_next ns_V ns_T ns_sym] in *. intros Hd.
    destruct op as [a|q r|[q r b]|u]; cbn [INA_call ns_step].
    - unfold NA_add_vertex. rewrite HL.
      assert (NI : ~ In k (dkeys (na_adj g))) by (rewrite KV; intros I; apply LT in I; lia).
      destruct (add_vertex_rep _ _ _ W R NI) as (W' & R' & K').
      cbn [fst snd aout_vertex]. split; [|reflexivity].
      assert (Ssame : forall x, (match a with None => na_symbol g | Some _ => fun x => if eqb x k then a else na_symbol g x end) x
        = (match a with None => sym | _ => fun x => if x =? k then a else sym x end) x).
      { intros x. destruct a; [|apply Sy]. destruct (eqb_spec x k), (Nat.eqb_spec x k); try congruence; apply Sy. }
      assert (Sold : forall x, In x V -> (match a with None => sym | _ => fun x => if x =? k then a else sym x end) x = sym x).
      { intros x I. destruct a; [|reflexivity]. destruct (Nat.eqb_spec x k); [|reflexivity]. subst. apply LT in I. lia. }
      set (sym' := match a with None => sym | _ => fun x => if x =? k then a else sym x end) in *.
      unfold nrep. cbn. split; [|split; [|split]].
      + split; [reflexivity|]. split; [rewrite K', KV; reflexivity|]. auto.
      + split; [exact Ssame|]. split; [exact Np|]. split; [exact NDp|].
        intros q r. rewrite P. destruct (in_dec' r V) as [I|NIr]; [rewrite Sold by exact I; tauto|].
        split; intros J; apply C in J; cbn in J; tauto.
      + intros e I. pose proof (C _ I) as (D & I1 & I2). rewrite Sold by exact I2. rewrite !in_app_iff. tauto.
      + intros v I. apply in_app_iff in I. destruct I as [I|[<-|[]]]; [apply LT in I|]; lia.
    - unfold INA_add_edge, NA_add_edge. rewrite Sy.
      destruct (mem_reflect q V) as [Iq|Nq].
      + destruct (dget (na_adj g) q) as [d|] eqn:G.
        2:{ exfalso. apply dget_None in G. apply G. rewrite KV. exact Iq. }
        rewrite (trep_lookup _ _ q (sym r) R). unfold tr. rewrite G. unfold dmem.
        destruct (dget d (sym r)) as [r0|] eqn:E.
        * cbn. split; [exact RR|reflexivity].
        * destruct (trep_set _ _ q r (sym r) d W R G) as (W' & R' & K').
          assert (Nk : forall r', ~ In (Edge q r' (sym r)) T).
          { intros r' I. apply R in I. unfold tr in I. rewrite G, E in I. discriminate. }
          assert (DK : drop_key q (sym r) T = T).
          { apply filter_id. intros [q' r' a'] I. destruct (same_key_spec q (sym r) (Edge q' r' a')) as [[X Y]|]; [|reflexivity].
            cbn in X, Y. subst. exfalso. eapply Nk. exact I. }
          rewrite DK in R'. cbn [fst snd aout_edge]. split; [|reflexivity].
          unfold nrep. cbn [na_last na_adj na_pred na_symbol na_with_adj na_with_pred ns_next ns_V ns_T ns_sym].
          split; [|split; [|split]].
          -- split; [exact HL|]. split; [rewrite K'; exact KV|]. auto.
          -- split; [exact Sy|]. split; [apply NoDup_dset; exact Np|]. split.
             ++ intros r'. rewrite preds_dset. destruct (r' =? r); [apply NoDup_sadd|]; apply NDp.
             ++ intros q' r'. rewrite preds_dset, in_app_iff. cbn [In]. rewrite <- (P q' r').
                destruct (Nat.eqb_spec r' r) as [->|Nr]; [rewrite In_sadd|]; intuition congruence.
          -- intros e I. apply in_app_iff in I. destruct I as [I|[<-|[]]]; [apply C; exact I|]. cbn in *. tauto.
          -- exact LT.
      + destruct (dget (na_adj g) q) as [d|] eqn:G.
        { exfalso. apply dget_Some_key in G. rewrite KV in G. contradiction. }
        cbn. split; [exact RR|reflexivity].
    - unfold INA_remove_edge. cbn [source target].
      assert (EX : existsb (fun x : edge (option A) => (source x =? q) && (target x =? r)) T = true <-> In q (preds_of (na_pred g) r)).
      { rewrite P, existsb_exists. split.
        - intros ([q' r' a'] & I & B). cbn in B. apply andb_true_iff in B. destruct B as [B1 B2].
          apply Nat.eqb_eq in B1, B2. subst. pose proof (C _ I) as (D & _). cbn in D. subst. exact I.
        - intros I. eexists. split; [exact I|]. cbn. rewrite !Nat.eqb_refl. reflexivity. }
      destruct (remove_edge_spec (A:=option A) (mkAut (na_last g) (na_adj g) (na_q0 g) (na_final g)) (Edge q r (sym r)) W)
        as (m & Em & Wm & Km & Tm). cbn [au_adj] in Km, Tm.
      assert (NE : NA_remove_edge g (Edge q r b) = na_with_adj g m).
      { unfold NA_remove_edge. cbn [source target]. rewrite Sy. unfold A_remove_edge in Em. cbn in Em.
        destruct (dget (na_adj g) q) as [d|]; [destruct (dmem d (sym r))|]; injection Em as <-; try reflexivity;
          destruct g; reflexivity. }
      rewrite NE. cbn [na_with_adj na_pred].
      assert (Rm : trep m (drop_key q (sym r) T)).
      { eapply trep_remove; [exact R|]. intros q' a'. rewrite Tm. reflexivity. }
      destruct (mem_reflect q (preds_of (na_pred g) r)) as [I|NI].
      + rewrite (proj2 EX I). cbn [fst snd aout_unit]. split; [|reflexivity].
        apply P in I.
        unfold nrep. cbn [na_last na_adj na_pred na_symbol na_with_adj na_with_pred ns_next ns_V ns_T ns_sym].
        split; [|split; [|split]].
        * split; [exact HL|]. split; [rewrite Km; exact KV|]. auto.
        * split; [exact Sy|]. split; [apply NoDup_dset; exact Np|]. split.
          -- intros r'. rewrite preds_dset. destruct (r' =? r); [apply NoDup_srem|]; apply NDp.
          -- intros q' r'. rewrite preds_dset, In_drop_key. cbn [source distinguisher]. rewrite <- (P q' r').
             destruct (Nat.eqb_spec r' r) as [->|Nr]; [rewrite In_srem; intuition congruence|].
             split; [|tauto]. intros J. split; [exact J|]. intros [-> E]. apply P in J.
             rewrite E in J. apply Nr.
             pose proof (keys_same_key _ _ R _ _ J I eq_refl eq_refl) as X. congruence.
        * intros e Ie. apply In_drop_key in Ie. apply C. tauto.
        * exact LT.
      + assert (B : existsb (fun x : edge (option A) => (source x =? q) && (target x =? r)) T = false).
        { apply not_true_iff_false. rewrite EX. exact NI. }
        rewrite B. cbn [fst snd aout_unit]. split; [|reflexivity].
        cbn in Hd. destruct Hd as [(x & Ix & X1 & X2)|Hd].
        { exfalso. apply not_true_iff_false in B. apply B. apply existsb_exists. exists x. split; [exact Ix|].
          rewrite X1, X2, !Nat.eqb_refl. reflexivity. }
        rewrite (trep_lookup _ _ _ _ R) in Hd.
        assert (DK : drop_key q (sym r) T = T).
        { apply filter_id. intros [q' r' a'] I. destruct (same_key_spec q (sym r) (Edge q' r' a')) as [[X Y]|]; [|reflexivity].
          cbn in X, Y. subst. apply R in I. congruence. }
        rewrite DK in Rm.
        unfold nrep. cbn [na_last na_adj na_pred na_symbol na_with_adj na_with_pred ns_next ns_V ns_T ns_sym].
        split; [|auto]. split; [exact HL|]. split; [rewrite Km; exact KV|]. auto.
    - unfold INA_remove_vertex.
      assert (S1 : exists m p, (if dmem (na_pred g) u then
          match foreach (fun m p => ndel_adj m p (na_symbol g u)) (na_adj g) (preds_of (na_pred g) u) with
          | (m, Raise ex) => (na_with_adj g m, Raise ex)
          | (m, Ok _) => (na_with_pred (na_with_adj g m) (ddel (na_pred g) u), Ok tt)
          end else (g, Ok tt)) = (na_with_pred (na_with_adj g m) p, Ok tt) /\ twf m /\ dkeys m = dkeys (na_adj g) /\
          (forall q a r, tr m q a = Some r <-> tr (na_adj g) q a = Some r /\ r <> u) /\
          NoDup (dkeys p) /\ (forall r, NoDup (preds_of p r)) /\
          (forall x r, In x (preds_of p r) <-> In x (preds_of (na_pred g) r) /\ r <> u)).
      { assert (TT : forall q a, tr (na_adj g) q a = Some u <-> In q (preds_of (na_pred g) u) /\ a = sym u).
        { intros q a. rewrite P. split.
          - intros E. apply R in E. pose proof (C _ E) as (D & _). cbn in D. subst a. auto.
          - intros [I ->]. apply R. exact I. }
        destruct (dmem (na_pred g) u) eqn:M.
        - rewrite Sy. destruct (ndel_spec (sym u) u (preds_of (na_pred g) u) (na_adj g) W (NDp u)) as (m & -> & Wm & Km & Tm).
          { intros p I. apply TT. auto. }
          exists m, (ddel (na_pred g) u). split; [reflexivity|]. split; [exact Wm|]. split; [exact Km|]. split; [|split; [|split]].
          + intros q a r. rewrite Tm, <- TT. intuition congruence.
          + apply NoDup_ddel. exact Np.
          + intros r. rewrite preds_ddel by exact Np. destruct (r =? u); [constructor|apply NDp].
          + intros x r. rewrite preds_ddel by exact Np. destruct (Nat.eqb_spec r u); cbn; tauto.
        - exists (na_adj g), (na_pred g). split; [destruct g; reflexivity|]. split; [exact W|]. split; [reflexivity|].
          apply dmem_false in M. assert (PE : preds_of (na_pred g) u = []).
          { unfold preds_of. rewrite (proj2 (dget_None _ _) M). reflexivity. }
          split; [|split; [exact Np|split; [exact NDp|]]].
          + intros q a r. split; [|tauto]. intros E. split; [exact E|]. intros ->. apply TT in E. rewrite PE in E. destruct E as [[] _].
          + intros x r. split; [|tauto]. intros E. split; [exact E|]. intros ->. rewrite PE in E. destruct E. }
      destruct S1 as (m & p & -> & Wm & Km & Tm & Np1 & NDp1 & Ip).
      cbn [na_with_adj na_with_pred na_adj na_pred].
      assert (Rm : trep (ddel m u) (drop_incident u T)).
      { eapply trep_drop_incident; [exact R|]. intros q a r. rewrite tr_ddel by apply Wm.
        destruct (eqb_spec q u) as [->|Nq]; [split; [discriminate|tauto]|]. rewrite Tm. tauto. }
      assert (CC : forall e, In e (drop_incident u T) -> distinguisher e = sym (target e) /\
         In (source e) (filter (fun v => negb (v =? u)) V) /\ In (target e) (filter (fun v => negb (v =? u)) V)).
      { intros e I. unfold drop_incident in I. apply filter_In in I. destruct I as [I B]. apply C in I. rewrite !filter_In.
        destruct (Nat.eqb_spec (source e) u), (Nat.eqb_spec (target e) u); cbn in B; try discriminate. tauto. }
      destruct (dget m u) as [d|] eqn:G.
      + destruct (out_preds_spec u (map snd d) p Np1 NDp1) as (Np2 & NDp2 & Ip2).
        cbn [fst snd aout_unit]. split; [|reflexivity].
        unfold nrep. cbn [na_last na_adj na_pred na_symbol na_with_adj na_with_pred ns_next ns_V ns_T ns_sym].
        split; [|split; [|split]].
        * split; [exact HL|]. split; [|split; [apply twf_ddel; exact Wm|exact Rm]].
          rewrite dkeys_ddel by apply Wm. rewrite Km, KV. unfold srem. apply filter_ext. intros v. f_equal.
          destruct (eqb_spec u v), (Nat.eqb_spec v u); congruence.
        * split; [exact Sy|]. split; [exact Np2|]. split; [exact NDp2|].
          intros q r. rewrite Ip2, Ip, P. unfold drop_incident. rewrite filter_In. cbn.
          destruct (Nat.eqb_spec q u) as [->|Nq]; cbn.
          -- split; [|intros [_ X]; discriminate X]. intros [[I Nr] X]. exfalso. apply X. split; [reflexivity|].
             apply R in I. assert (J : tr m u (sym r) = Some r) by (apply Tm; auto).
             unfold tr in J. rewrite G in J. apply dget_In in J. apply (in_map snd) in J. exact J.
          -- destruct (Nat.eqb_spec r u); cbn; intuition congruence.
        * exact CC.
        * intros v I. apply filter_In in I. apply LT. tauto.
      + assert (NV : ~ In u V) by (rewrite <- KV, <- Km; apply dget_None; exact G).
        cbn [fst snd aout_unit]. split; [|reflexivity].
        assert (E1 : filter (fun v => negb (v =? u)) V = V).
        { apply filter_id. intros v I. destruct (Nat.eqb_spec v u); [congruence|reflexivity]. }
        assert (E2 : drop_incident u T = T).
        { apply filter_id. intros e I. apply C in I.
          destruct (Nat.eqb_spec (source e) u) as [Z|], (Nat.eqb_spec (target e) u) as [Z'|]; try reflexivity;
            exfalso; apply NV; try rewrite <- Z; try rewrite <- Z'; tauto. }
        rewrite E1, E2 in *.
        unfold nrep. cbn [na_last na_adj na_pred na_symbol na_with_adj na_with_pred ns_next ns_V ns_T ns_sym].
        split; [|split; [|auto]].
        * split; [exact HL|]. split; [rewrite Km; exact KV|]. split; [exact Wm|]. split; [apply R|].
          intros q r a. rewrite (proj2 R q r a). rewrite Tm. split; [|tauto]. intros E. split; [exact E|]. intros ->.
          apply R in E. apply C in E. cbn in E. tauto.
        * split; [exact Sy|]. split; [exact Np1|]. split; [exact NDp1|]. intros q r. rewrite Ip, P.
          split; [tauto|]. intros I. split; [exact I|]. intros ->. apply C in I. cbn in I. tauto.
  Qed.

  Lemma nrep_init : nrep NA_init ns_init.
  Proof.
    unfold nrep. cbn. split; [|split; [|split]].
    - split; [reflexivity|]. split; [reflexivity|]. split; [split; [constructor|discriminate]|]. split; [constructor|].
      intros q r a. cbn. split; [intros []|discriminate].
    - split; [reflexivity|]. split; [constructor|]. split; [intros; constructor|]. intros; split; intros [].
    - intros e [].
    - intros v [].
  Qed.

  Lemma nrep_runs ops : forall g s, nrep g s -> ndisciplined s ops ->
    nrep (fst (runs INA_call g ops)) (fst (runs ns_step s ops)) /\ snd (runs INA_call g ops) = snd (runs ns_step s ops).
  Proof.
    induction ops as [|op ops IH]; intros g s R D; cbn; [tauto|]. destruct D as [D1 D2].
    destruct (NA_step g s op R D1) as [R1 O1].
    destruct (INA_call g op) as [g1 o], (ns_step s op) as [s1 o']. cbn in *. subst o'.
    destruct (IH _ _ R1 D2) as [R2 O2].
    destruct (runs INA_call g1 ops) as [g2 os], (runs ns_step s1 ops) as [s2 os']. cbn in *. subst. tauto.
  Qed.
End NA.

Section Make.
  Context {A N : Type} {EA : EqDec A} {EN : EqDec N}.

  Lemma index_of_spec (l : list N) x i : NoDup l -> (index_of l x = Some i <-> nth_error l i = Some x).
  Proof.
    revert i. induction l as [|y l IH]; intros i ND; cbn.
    - split; [discriminate|]. destruct i; discriminate.
    - inversion ND as [|? ? NI ND']; subst. destruct (eqb_spec x y) as [->|Nx].
      + split; [intros [= <-]; reflexivity|]. destruct i as [|i]; [reflexivity|]. cbn. intros E.
        exfalso. apply NI. eapply nth_error_In. exact E.
      + destruct i as [|i]; cbn.
        * split; [destruct (index_of l x); discriminate|]. intros [= ->]. congruence.
        * rewrite <- (IH i ND'). destruct (index_of l x); cbn; split; congruence.
  Qed.
  Lemma index_of_In (l : list N) x : In x l -> exists i, index_of l x = Some i.
  Proof.
    induction l as [|y l IH]; cbn; [tauto|]. intros I. destruct (eqb_spec x y) as [->|Nx]; [eauto|].
    destruct IH as (i & ->); [destruct I; congruence|]. cbn. eauto.
  Qed.
  Lemma index_of_None (l : list N) x : ~ In x l -> index_of l x = None.
  Proof.
    induction l as [|y l IH]; cbn; [reflexivity|]. intros NI. destruct (eqb_spec x y) as [->|Nx]; [tauto|].
    rewrite IH by tauto. reflexivity.
  Qed.

  Lemma vertex_names_spec sorted (tr : list (N * N * A)) : (forall l, Permutation (sorted l) l) ->
    NoDup (vertex_names sorted tr) /\
    forall x, In x (vertex_names sorted tr) <-> exists y a, In (x, y, a) tr \/ In (y, x, a) tr.
  Proof.
    intros HP. unfold vertex_names. split.
    - eapply Permutation_NoDup; [symmetry; apply HP|]. apply NoDup_sunion. apply NoDup_sof.
    - intros x. etransitivity; [split; apply Permutation_in; [|symmetry]; apply HP|].
      rewrite In_sunion, In_sof, !in_map_iff. split.
      + intros [(((q, r), a) & <- & I)|(((q, r), a) & <- & I)]; cbn; eauto.
      + intros (y & a & [I|I]); [left|right]; eexists; (split; [|exact I]); reflexivity.
  Qed.

  Definition mfun (names : list N) (g : aut A) (t : N * N * A) : aut A * res unit :=
    let '(qn, rn, a) := t in
      match index_of names qn, index_of names rn with
      | Some q, Some r => match A_add_edge g q r a with (g', Ok _) => (g', Ok tt) | (g', Raise e) => (g', Raise e) end
      | _, _ => (g, Raise KeyError)
      end.

  Lemma make_edges_aux names (tr : list (N * N * A)) (Pre : list (N * N * A)) : NoDup names ->
    (forall q r a, In (q, r, a) tr -> In q names /\ In r names) ->
    (forall q r r' a, In (q, r, a) (Pre ++ tr) -> In (q, r', a) (Pre ++ tr) -> r = r') ->
    forall g T, arep g (AA (length names) (seq 0 (length names)) T (Some 0) (fun _ => false)) ->
    (forall q r a, In (Edge q r a) T <-> exists qn rn, In (qn, rn, a) Pre /\ nth_error names q = Some qn /\ nth_error names r = Some rn) ->
    exists g' T', foreach (mfun names) g tr = (g', Ok tt) /\
      arep g' (AA (length names) (seq 0 (length names)) T' (Some 0) (fun _ => false)) /\
      (forall q r a, In (Edge q r a) T' <-> exists qn rn, In (qn, rn, a) (Pre ++ tr) /\ nth_error names q = Some qn /\ nth_error names r = Some rn).
  Proof.
    intros ND. revert Pre. induction tr as [|[[qn rn] a] tr IH]; intros Pre HI HD g T R HT.
    - exists g, T. rewrite app_nil_r. split; [reflexivity|]. tauto.
    - cbn [foreach mfun]. destruct (HI qn rn a (or_introl eq_refl)) as [Iq Ir].
      destruct (index_of_In _ _ Iq) as (q & Eq), (index_of_In _ _ Ir) as (r & Er). rewrite Eq, Er.
      apply (index_of_spec _ _ _ ND) in Eq. apply (index_of_spec _ _ _ ND) in Er.
      destruct (A_step _ _ (AAddEdge q r a) R) as [R1 O1].
      cbn [A_call] in R1, O1.
      assert (Lq : q < length names) by (apply nth_error_Some; congruence).
      assert (Mq : mem q (seq 0 (length names)) = true) by (apply mem_spec; apply in_seq; lia).
      assert (FUN : forall q' r' a', In (Edge q' r' a') T -> q' = q -> a' = a -> r' = r).
      { intros q' r' a' I -> ->. apply HT in I. destruct I as (qn' & rn' & I & X & Y).
        assert (qn' = qn) by congruence. subst qn'.
        assert (rn' = rn). { apply (HD qn rn' rn a); apply in_app_iff; [left; exact I|right; left; reflexivity]. }
        subst rn'. apply (index_of_spec _ _ _ ND) in Y. apply (index_of_spec _ _ _ ND) in Er. congruence. }
      assert (STEP : exists g1 x T1, A_add_edge g q r a = (g1, Ok x) /\
         arep g1 (AA (length names) (seq 0 (length names)) T1 (Some 0) (fun _ => false)) /\
         forall q' r' a', In (Edge q' r' a') T1 <-> In (Edge q' r' a') T \/ (q' = q /\ r' = r /\ a' = a)).
      { cbn [aa_step] in R1, O1. destruct (A_add_edge g q r a) as [g1 x]. cbn [fst snd] in R1, O1.
        destruct (lookup T q a) as [[|y]|] eqn:L; rewrite ?Mq in *; cbn [fst snd] in R1, O1;
          (destruct x as [[oe added]|ex]; [|discriminate O1]).
        - exists g1, (oe, added). eexists. split; [reflexivity|]. split; [exact R1|].
          intros q' r' a'. rewrite in_app_iff, In_drop_key. cbn. split.
          + intros [[I _]|[[= <- <- <-]|[]]]; auto.
          + intros [I|(-> & -> & ->)]; [|right; left; reflexivity].
            destruct (Nat.eq_dec q' q) as [->|Nq]; [|left; tauto]. destruct (EA a' a) as [->|Na]; [|left; tauto].
            right. left. f_equal. symmetry. eapply FUN; [exact I|reflexivity|reflexivity].
        - exists g1, (oe, added), T. split; [reflexivity|]. split; [exact R1|]. intros q' r' a'. split; [tauto|].
          intros [I|(-> & -> & ->)]; [exact I|]. rewrite (trep_lookup _ _ _ _ (proj1 (proj2 (proj2 (proj2 R))))) in L.
          apply (proj1 (proj2 (proj2 (proj2 R)))) in L. cbn in L.
          rewrite <- (FUN _ _ _ L eq_refl eq_refl). exact L.
        - exists g1, (oe, added). eexists. split; [reflexivity|]. split; [exact R1|].
          intros q' r' a'. rewrite in_app_iff, In_drop_key. cbn. split.
          + intros [[I _]|[[= <- <- <-]|[]]]; auto.
          + intros [I|(-> & -> & ->)]; [|right; left; reflexivity].
            destruct (Nat.eq_dec q' q) as [->|Nq]; [|left; tauto]. destruct (EA a' a) as [->|Na]; [|left; tauto].
            right. left. f_equal. symmetry. eapply FUN; [exact I|reflexivity|reflexivity]. }
      destruct STEP as (g1 & x & T1 & -> & Ra1 & HT1).
      destruct (IH (Pre ++ [(qn, rn, a)])) with (g := g1) (T := T1) as (g' & T' & E' & R' & HT').
      + intros; apply (HI q0 r0 a0); right; assumption.
      + rewrite <- app_assoc. exact HD.
      + exact Ra1.
      + intros q' r' a'. rewrite HT1, HT. split.
        * intros [(qn' & rn' & I & X)|(-> & -> & ->)].
          -- exists qn', rn'. rewrite in_app_iff. tauto.
          -- exists qn, rn. rewrite in_app_iff. cbn. tauto.
        * intros (qn' & rn' & I & X & Y). apply in_app_iff in I. destruct I as [I|[[= -> -> ->]|[]]].
          -- left. eauto.
          -- right. split; [|split; [|reflexivity]].
             ++ apply (index_of_spec _ _ _ ND) in X. apply (index_of_spec _ _ _ ND) in Eq. congruence.
             ++ apply (index_of_spec _ _ _ ND) in Y. apply (index_of_spec _ _ _ ND) in Er. congruence.
      + exists g', T'. rewrite <- app_assoc in HT'. auto.
  Qed.

  Lemma finals_loop (names : list N) (fin : N -> bool) L : forall g : aut A,
    let g' := fold_left (fun g q => match nth_error names q with
                | Some qn => if fin qn then A_set_final g q true else g | None => g end) L g in
    au_last g' = au_last g /\ au_adj g' = au_adj g /\ au_q0 g' = au_q0 g /\
    forall q, au_final g' q = if mem q L && match nth_error names q with Some qn => fin qn | None => false end then true else au_final g q.
  Proof.
    induction L as [|q0 L IH]; intros g; cbn -[mem]; [auto|].
    set (g1 := match nth_error names q0 with Some qn => if fin qn then A_set_final g q0 true else g | None => g end).
    destruct (IH g1) as (I1 & I2 & I3 & I4).
    assert (X : au_last g1 = au_last g /\ au_adj g1 = au_adj g /\ au_q0 g1 = au_q0 g /\
      forall q, au_final g1 q = if eqb q q0 && match nth_error names q with Some qn => fin qn | None => false end then true else au_final g q).
    { unfold g1. destruct (nth_error names q0) as [qn|] eqn:E; [destruct (fin qn) eqn:F|]; cbn.
      - split; [reflexivity|]. split; [reflexivity|]. split; [reflexivity|]. intros q.
        destruct (eqb_spec q q0) as [->|]; cbn; [rewrite E, F|]; reflexivity.
      - split; [reflexivity|]. split; [reflexivity|]. split; [reflexivity|]. intros q.
        destruct (eqb_spec q q0) as [->|]; cbn; [rewrite E, F|]; reflexivity.
      - split; [reflexivity|]. split; [reflexivity|]. split; [reflexivity|]. intros q.
        destruct (eqb_spec q q0) as [->|]; cbn; [rewrite E|]; reflexivity. }
    destruct X as (X1 & X2 & X3 & X4). repeat split; try congruence.
    intros q. rewrite I4, X4. unfold mem. cbn. destruct (eqb q q0); cbn;
      destruct (match nth_error names q with Some qn => fin qn | None => false end); rewrite ?andb_false_r, ?andb_true_r;
      try reflexivity. destruct (existsb (eqb q) L); reflexivity.
  Qed.

  Lemma make_automaton_spec sorted (tr : list (N * N * A)) q0n fin :
    (forall l, Permutation (sorted l) l) ->
    (forall q r r' a, In (q, r, a) tr -> In (q, r', a) tr -> r = r') ->
    let names := vertex_names sorted tr in
    NoDup names /\ (forall x, In x names <-> exists y a, In (x, y, a) tr \/ In (y, x, a) tr) /\
    (tr = [] \/ In q0n names ->
     exists g, make_automaton sorted tr q0n fin = Ok g /\
      A_vertices g = seq 0 (length names) /\ NoDup (A_edges g) /\
      (forall q r a, In (Edge q r a) (A_edges g) <->
         exists qn rn, In (qn, rn, a) tr /\ nth_error names q = Some qn /\ nth_error names r = Some rn) /\
      (tr <> [] -> exists q0, A_initial g = Some q0 /\ nth_error names q0 = Some q0n) /\
      (forall q, A_is_final g q = match nth_error names q with Some qn => fin qn | None => false end) /\
      exists s, arep g s) /\
    (tr <> [] -> ~ In q0n names -> make_automaton sorted tr q0n fin = Raise KeyError).
  Proof.
    intros HP HD names. destruct (vertex_names_spec sorted tr HP) as [ND HN].
    split; [exact ND|]. split; [exact HN|].
    destruct (make_edges_aux names tr [] ND) with (g := A_init (A:=A) (length names)) (T := @nil (edge A)) as (g & T & E & R & HT).
    - intros q r a I. split; apply HN; eauto.
    - exact HD.
    - apply arep_init.
    - intros q r a. split; [intros []|intros (? & ? & [] & _)].
    - cbn [app] in HT. assert (E' : make_edges names (A_init (length names)) tr = (g, Ok tt)).
      { rewrite <- E. unfold make_edges. reflexivity. }
      assert (V : A_vertices g = seq 0 (length names)) by apply R.
      assert (NE : tr <> [] -> exists x l, A_vertices g = x :: l).
      { intros Ht. rewrite V. destruct tr as [|[[q r] a] l]; [congruence|].
        destruct names as [|n0 names'] eqn:En; [|cbn; eauto]. exfalso.
        assert (In q (vertex_names sorted ((q, r, a) :: l))) by (apply HN; exists r, a; left; left; reflexivity).
        fold names in H. rewrite En in H. destruct H. }
      assert (MK : make_automaton sorted tr q0n fin =
        match A_vertices g with
        | [] => Ok (fold_left (fun g q => match nth_error names q with
                | Some qn => if fin qn then A_set_final g q true else g | None => g end) (A_vertices g) g)
        | _ => match index_of names q0n with None => Raise KeyError
               | Some q0 => let g := A_set_initial g (Some q0) true in
                 Ok (fold_left (fun g q => match nth_error names q with
                | Some qn => if fin qn then A_set_final g q true else g | None => g end) (A_vertices g) g) end
        end).
      { unfold make_automaton. fold names. rewrite E'. destruct (A_vertices g); reflexivity. }
      split.
      + intros Hq.
        assert (G : exists g1, (tr <> [] -> exists q0, au_q0 g1 = Some q0 /\ nth_error names q0 = Some q0n) /\
            au_adj g1 = au_adj g /\ au_last g1 = au_last g /\ au_final g1 = au_final g /\
            make_automaton sorted tr q0n fin = Ok (fold_left (fun g q => match nth_error names q with
                | Some qn => if fin qn then A_set_final g q true else g | None => g end) (A_vertices g1) g1)).
        { rewrite MK. destruct (A_vertices g) as [|v0 vs] eqn:EV.
          - exists g. split; [|split; [reflexivity|split; [reflexivity|split; [reflexivity|rewrite EV; reflexivity]]]].
            intros Ht. destruct (NE Ht) as (x & l & X). discriminate X.
          - destruct Hq as [->|Iq].
            { exfalso. assert (names = []) as Z.
              { assert (X : forall x, ~ In x names).
                { intros x I. apply HN in I. destruct I as (? & ? & [[]|[]]). }
                destruct names as [|n0 nn]; [reflexivity|]. exfalso. apply (X n0). left. reflexivity. }
              rewrite Z in V. discriminate V. }
            destruct (index_of_In _ _ Iq) as (q0 & Eq). rewrite Eq.
            exists (A_set_initial g (Some q0) true). split; [|auto].
            intros _. exists q0. split; [reflexivity|]. apply (index_of_spec _ _ _ ND). exact Eq. }
        destruct G as (g1 & G0 & G1 & G1' & G2 & ->).
        pose proof (finals_loop names fin (A_vertices g1) g1) as FL. cbv zeta in FL.
        set (g2 := fold_left (fun g q => match nth_error names q with
                | Some qn => if fin qn then A_set_final g q true else g | None => g end) (A_vertices g1) g1) in *.
        destruct FL as (F0 & F1 & F2 & F3). exists g2.
        assert (V1 : A_vertices g1 = seq 0 (length names)) by (unfold A_vertices; rewrite G1; exact V).
        pose proof R as (R1 & R2 & R3 & R4 & R5 & R6 & R7).
        assert (FIN : forall q, au_final g2 q = match nth_error names q with Some qn => fin qn | None => false end).
        { intros q. rewrite F3, G2, R6. cbn. destruct (nth_error names q) as [qn|] eqn:En.
          - assert (mem q (A_vertices g1) = true) as ->.
            { apply mem_spec. rewrite V1. apply in_seq. assert (q < length names) by (apply nth_error_Some; congruence). lia. }
            destruct (fin qn); reflexivity.
          - rewrite andb_false_r. reflexivity. }
        split; [reflexivity|]. split; [unfold A_vertices; rewrite F1; exact V1|].
        assert (Eg : A_edges g2 = tedges (au_adj g)) by (unfold A_edges; rewrite F1, G1; reflexivity).
        split; [rewrite Eg; apply NoDup_tedges; exact R3|]. split; [|split; [|split]].
        * intros q r a. rewrite Eg, (In_tedges _ _ _ _ R3), <- HT. symmetry. apply R4.
        * intros Ht. unfold A_initial. rewrite F2. auto.
        * exact FIN.
        * exists (AA (length names) (seq 0 (length names)) T (au_q0 g2) (au_final g2)).
          unfold arep. cbn. rewrite F0, F1, G1, G1'. split; [exact R1|]. split; [exact R2|]. split; [exact R3|]. split; [exact R4|].
          split; [reflexivity|]. split; [reflexivity|]. exact R7.
      + intros Ht NI. rewrite MK. destruct (NE Ht) as (x & l & ->). rewrite index_of_None by exact NI. reflexivity.
  Qed.
End Make.
