From Verif Require Import Graph GraphProofs Automaton AutomatonSpec AutomatonProofs AutomatonProofs2 AutomatonProofs3 NodeAut NodeAutSpec NodeAutProofs NodeAutProofs2 IncMake IncMakeSpec Base BaseProofs.
#[local] Arguments dkeys : simpl never.

Section K.
  Context {A N : Type} {EA : EqDec A} {EN : EqDec N}.
  Lemma targets_snoc (l : list (N * N * A)) q r a q' a' : targets (l ++ [(q, r, a)]) q' a' = targets l q' a' ++ (if eqb q q' && eqb a a' then [r] else []).
  Proof. unfold targets. rewrite flat_map_app. cbn [flat_map]. rewrite app_nil_r. reflexivity. Qed.
  Lemma In_targets (l : list (N * N * A)) q a r : In r (targets l q a) <-> In (q, r, a) l.
  Proof.
    unfold targets. rewrite in_flat_map. split.
    - intros (((q' & r') & a') & I & J). destruct (eqb_spec q' q) as [->|]; [|destruct J]. destruct (eqb_spec a' a) as [->|]; [|destruct J]. destruct J as [->|[]]. exact I.
    - intros I. exists (q, r, a). split; [exact I|]. rewrite !eqb_refl. left. reflexivity.
  Qed.
  Lemma find_app {X} (p : X -> bool) l1 l2 : find p (l1 ++ l2) = match find p l1 with Some x => Some x | None => find p l2 end.
  Proof. induction l1 as [|x l IH]; [reflexivity|]. cbn. destruct (p x); [reflexivity|exact IH]. Qed.
  Lemma kept_snoc (f : option N) ts r : kept f (ts ++ [r]) =
    match kept f ts with
    | None => Some r
    | Some t => if eqb (Some t) f then Some (if eqb (Some r) f then t else r) else Some t
    end.
  Proof.
    unfold kept. rewrite find_app. destruct (find _ ts) as [t|] eqn:F.
    - apply find_some in F. destruct F as [_ F]. destruct (eqb (Some t) f); [discriminate|reflexivity].
    - cbn [find]. destruct ts as [|t ts].
      + cbn [hd_error app]. destruct (negb (eqb (Some r) f)); reflexivity.
      + cbn [hd_error app]. pose proof (find_none _ _ F t (or_introl eq_refl)) as Ft. cbn beta in Ft. destruct (eqb (Some t) f) eqn:E; [|discriminate].
        destruct (eqb (Some r) f); reflexivity.
  Qed.
  Lemma kept_In (f : option N) ts t : kept f ts = Some t -> In t ts.
  Proof.
    unfold kept. destruct (find _ ts) as [x|] eqn:F.
    - intros [= ->]. apply find_some in F. apply F.
    - destruct ts; [discriminate|]. intros [= ->]. left. reflexivity.
  Qed.
  Lemma kept_None (f : option N) ts : kept f ts = None <-> ts = [].
  Proof.
    unfold kept. split; [|intros ->; reflexivity]. destruct (find _ ts) as [x|] eqn:F; [discriminate|]. destruct ts; [reflexivity|discriminate].
  Qed.
End K.

(** the loop, on vertex descriptors *)
Section E.
  Context {A : Type} {EA : EqDec A}.
  Definition add1 (g : aut A) (t : nat * nat * A) : aut A * res unit :=
    let '(q, r, a) := t in match A_add_edge g q r a with (g', Ok _) => (g', Ok tt) | (g', Raise e) => (g', Raise e) end.
  Definition iadd1 (g : iaut A) (t : nat * nat * A) : iaut A * res unit :=
    let '(q, r, a) := t in match IA_add_edge g q r a with (g', Ok _) => (g', Ok tt) | (g', Raise e) => (g', Raise e) end.

  Definition minv (n : nat) (pre : list (nat * nat * A)) (g : aut A) : Prop :=
    au_last g = n /\ dkeys (au_adj g) = seq 0 n /\ twf (au_adj g) /\ au_q0 g = Some 0 /\ (forall q, au_final g q = false) /\
    forall q a, tr (au_adj g) q a = kept (Some 0) (targets pre q a).

  Lemma add1_inv n pre g q r a : minv n pre g -> q < n -> exists g', add1 g (q, r, a) = (g', Ok tt) /\ minv n (pre ++ [(q, r, a)]) g' /\
    A_add_edge g q r a = (g', Ok (match kept (Some 0) (targets pre q a) with Some (S _) => (None, false) | _ => (Some (Edge q r a), true) end)).
  Proof.
    intros (L & K & W & Q & F & T) Lq. unfold add1, A_add_edge. change (A_delta g q a) with (tr (au_adj g) q a). rewrite T.
    assert (Iq : In q (dkeys (au_adj g))) by (rewrite K; apply in_seq; lia). destruct (dget (au_adj g) q) as [d|] eqn:D; [|apply dget_None in D; contradiction].
    assert (TN : forall q' a', eqb q q' && eqb a a' = false -> tr (dset (au_adj g) q (dset d a r)) q' a' = kept (Some 0) (targets (pre ++ [(q, r, a)]) q' a')).
    { intros q' a' Eb. rewrite tr_dset, targets_snoc, Eb, app_nil_r. destruct (eqb_spec q' q) as [->|]; [|apply T].
      rewrite dget_dset. rewrite eqb_refl in Eb. cbn in Eb. destruct (eqb_spec a' a) as [->|]; [rewrite eqb_refl in Eb; discriminate|]. rewrite <- T. unfold tr. rewrite D. reflexivity. }
    assert (SET : kept (Some 0) (targets pre q a) = None \/ kept (Some 0) (targets pre q a) = Some 0 ->
       minv n (pre ++ [(q, r, a)]) (mkAut (au_last g) (dset (au_adj g) q (dset d a r)) (au_q0 g) (au_final g))).
    { intros HK. split; [exact L|]. cbn [au_adj au_last au_q0 au_final]. split; [rewrite dkeys_dset_old by exact Iq; exact K|].
      split; [apply twf_dset; [exact W|apply NoDup_dset; apply (proj2 W q); exact D]|]. split; [exact Q|]. split; [exact F|].
      intros q' a'. destruct (eqb q q' && eqb a a') eqn:Eb; [|apply TN; exact Eb]. apply andb_prop in Eb. destruct Eb as [E1 E2]. destruct (BaseProofs.eqb_spec q q') as [<-|]; [|discriminate E1]. destruct (BaseProofs.eqb_spec a a') as [<-|]; [|discriminate E2]. clear E1 E2.
      rewrite tr_dset, targets_snoc, !eqb_refl, dget_dset, eqb_refl. cbn [andb]. rewrite kept_snoc. destruct HK as [-> | ->]; [reflexivity|].
      rewrite eqb_refl. destruct (eqb_spec (Some r) (Some 0)) as [[= ->]|]; reflexivity. }
    destruct (kept (Some 0) (targets pre q a)) as [[|t]|] eqn:EK; cbn [negb].
    - eexists. split; [reflexivity|]. split; [apply SET; right; reflexivity|reflexivity].
    - exists g. split; [reflexivity|]. split; [|reflexivity]. split; [exact L|]. split; [exact K|]. split; [exact W|]. split; [exact Q|]. split; [exact F|].
      intros q' a'. rewrite targets_snoc. destruct (eqb q q' && eqb a a') eqn:Eb; [|rewrite app_nil_r; apply T]. apply andb_prop in Eb. destruct Eb as [E1 E2]. destruct (BaseProofs.eqb_spec q q') as [<-|]; [|discriminate E1]. destruct (BaseProofs.eqb_spec a a') as [<-|]; [|discriminate E2]. clear E1 E2.
      rewrite kept_snoc, EK, T, EK. destruct (eqb_spec (Some (S t)) (Some 0)); [discriminate|reflexivity].
    - eexists. split; [reflexivity|]. split; [apply SET; left; reflexivity|reflexivity].
  Qed.

  Definition iinv (n : nat) (pre : list (nat * nat * A)) (g : iaut A) : Prop :=
    minv n pre (ia_base g) /\ dkeys (ia_in g) = seq 0 n /\ iwf (ia_in g) /\
    forall q r a, In a (lab (ia_in g) r q) <-> kept (Some 0) (targets pre q a) = Some r \/ (r = 0 /\ hd_error (targets pre q a) = Some 0).

  Lemma kept_hd (ts : list nat) : kept (Some 0) ts = Some 0 -> hd_error ts = Some 0.
  Proof.
    unfold kept. destruct (find _ ts) as [x|] eqn:F; [|trivial]. intros [= ->]. apply find_some in F. destruct F as [_ F]. cbv in F. discriminate.
  Qed.

  Lemma iadd1_inv n pre g q r a : iinv n pre g -> q < n -> r < n -> exists g', iadd1 g (q, r, a) = (g', Ok tt) /\ iinv n (pre ++ [(q, r, a)]) g'.
  Proof.
    intros (M & K & W & HL) Lq Lr. destruct (add1_inv n pre (ia_base g) q r a M Lq) as (b & _ & M' & Eb). unfold iadd1, IA_add_edge. rewrite Eb.
    assert (Ir : In r (dkeys (ia_in g))) by (rewrite K; apply in_seq; lia). destruct (dget (ia_in g) r) as [d|] eqn:D; [|apply dget_None in D; contradiction].
    set (s := match dget d q with None => [a] | Some s => sadd a s end).
    assert (SL : forall r' q' a', In a' (lab (dset (ia_in g) r (dset d q s)) r' q') <-> (r' = r /\ q' = q /\ a' = a) \/ In a' (lab (ia_in g) r' q')).
    { intros r' q' a'. rewrite lab_dset. destruct (eqb_spec r' r) as [->|]; [|tauto]. rewrite dget_dset. unfold lab at 1. rewrite D. destruct (eqb_spec q' q) as [->|]; [|tauto].
      unfold s. destruct (dget d q) as [s0|]; [rewrite In_sadd|cbn]; intuition congruence. }
    assert (SW : iwf (dset (ia_in g) r (dset d q s))).
    { apply iwf_dset; [exact W|]. destruct (proj2 W _ _ D) as [Nd Ds]. split; [apply NoDup_dset; exact Nd|]. intros q' s'. rewrite dget_dset. destruct (eqb_spec q' q) as [->|]; [|apply Ds].
      intros [= <-]. unfold s. destruct (dget d q) as [s0|] eqn:Dq; [|split; [repeat constructor; intros []|discriminate]].
      split; [apply NoDup_sadd; apply (Ds q s0 Dq)|]. intros X. assert (In a (sadd a s0)) as I by (apply In_sadd; left; reflexivity). rewrite X in I. destruct I. }
    assert (SET : kept (Some 0) (targets pre q a) = None \/ kept (Some 0) (targets pre q a) = Some 0 ->
       iinv n (pre ++ [(q, r, a)]) (mkIAut b (dset (ia_in g) r (dset d q s)))).
    { intros HK. split; [exact M'|]. cbn [ia_in]. split; [rewrite dkeys_dset_old by exact Ir; exact K|]. split; [exact SW|].
      intros q' r' a'. rewrite SL, HL, targets_snoc. destruct (eqb q q' && eqb a a') eqn:E.
      - apply andb_prop in E. destruct E as [E1 E2]. destruct (BaseProofs.eqb_spec q q') as [<-|]; [|discriminate E1]. destruct (BaseProofs.eqb_spec a a') as [<-|]; [|discriminate E2]. clear E1 E2. rewrite kept_snoc.
        destruct HK as [E|E]; rewrite E.
        + apply kept_None in E. rewrite E. cbn [app hd_error]. intuition congruence.
        + rewrite eqb_refl. pose proof (kept_hd _ E) as EH. destruct (targets pre q a) as [|t ts]; [discriminate|]. cbn [app hd_error] in *. injection EH as ->.
          destruct (eqb_spec (Some r) (Some 0)) as [[= ->]|Nr]; intuition congruence.
      - rewrite app_nil_r. split; [|tauto]. intros [(-> & -> & ->)|]; [|assumption]. rewrite !eqb_refl in E. discriminate. }
    destruct (kept (Some 0) (targets pre q a)) as [[|t]|] eqn:EK.
    - eexists. split; [reflexivity|]. apply SET. right. reflexivity.
    - eexists. split; [reflexivity|]. split; [exact M'|]. cbn [ia_in]. split; [exact K|]. split; [exact W|]. intros q' r' a'. rewrite HL, targets_snoc.
      destruct (eqb q q' && eqb a a') eqn:E; [|rewrite app_nil_r; tauto]. apply andb_prop in E. destruct E as [E1 E2]. destruct (BaseProofs.eqb_spec q q') as [<-|]; [|discriminate E1]. destruct (BaseProofs.eqb_spec a a') as [<-|]; [|discriminate E2]. clear E1 E2. rewrite kept_snoc, EK.
      destruct (eqb_spec (Some (S t)) (Some 0)); [discriminate|]. destruct (targets pre q a) as [|t0 ts]; [discriminate|]. cbn [app hd_error]. tauto.
    - eexists. split; [reflexivity|]. apply SET. left. reflexivity.
  Qed.

  Lemma add_loop n l : forall pre g ig, (forall q r a, In (q, r, a) l -> q < n /\ r < n) -> iinv n pre ig -> ia_base ig = g ->
    exists g' ig', foreach add1 g l = (g', Ok tt) /\ foreach iadd1 ig l = (ig', Ok tt) /\ iinv n (pre ++ l) ig' /\ ia_base ig' = g'.
  Proof.
    induction l as [|[[q r] a] l IH]; intros pre g ig HI I E.
    - exists g, ig. rewrite app_nil_r. auto.
    - destruct (HI q r a (or_introl eq_refl)) as [Lq Lr]. destruct (add1_inv n pre g q r a) as (g1 & E1 & M1 & X1); [rewrite <- E; apply I|exact Lq|].
      destruct (iadd1_inv n pre ig q r a I Lq Lr) as (ig1 & E2 & I1). cbn [foreach]. rewrite E1, E2.
      destruct (IH (pre ++ [(q, r, a)]) g1 ig1) as (g' & ig' & H1 & H2 & H3 & H4).
      + intros; apply (HI q0 r0 a0); right; assumption.
      + exact I1.
      + unfold iadd1, IA_add_edge in E2. rewrite E, X1 in E2. destruct (kept (Some 0) (targets pre q a)) as [[|]|].
        * destruct (dget (ia_in ig) r); [injection E2 as <-; reflexivity|discriminate].
        * injection E2 as <-. reflexivity.
        * destruct (dget (ia_in ig) r); [injection E2 as <-; reflexivity|discriminate].
      + exists g', ig'. rewrite <- app_assoc in H3. auto.
  Qed.

  Lemma iinv_init n : iinv n [] (IA_init (A := A) n) /\ ia_base (IA_init (A := A) n) = A_init n.
  Proof.
    destruct (iarep_init (A := A) n) as (R & K & W & L & C). destruct R as (R1 & R2 & R3 & R4 & R5 & R6 & R7). cbn in *. split.
    - split; [|split; [exact K|split; [exact W|]]].
      + split; [exact R1|]. split; [exact R2|]. split; [exact R3|]. split; [exact R5|]. split; [exact R6|]. intros q a. cbn.
        destruct (tr (au_adj (ia_base (IA_init n))) q a) as [r|] eqn:E; [|reflexivity]. apply R4 in E. destruct E.
      + intros q r a. rewrite L. cbn. intuition congruence.
    - unfold IA_init, A_init. assert (G : forall n (g : iaut A), ia_base (IA_add_vertices n g) = A_add_vertices n (ia_base g)).
      { induction n0 as [|m IH]; intros g; [reflexivity|]. cbn [IA_add_vertices A_add_vertices]. rewrite IH. reflexivity. }
      rewrite G. reflexivity.
  Qed.
End E.

(** from names to descriptors *)
Section Names.
  Context {A N : Type} {EA : EqDec A} {EN : EqDec N}.
  Definition idx (names : list N) (x : N) : nat := match index_of names x with Some i => i | None => 0 end.
  Definition itr (names : list N) (t : N * N * A) : nat * nat * A := let '(q, r, a) := t in (idx names q, idx names r, a).

  Lemma idx_spec names x : NoDup names -> In x names -> nth_error names (idx names x) = Some x.
  Proof. intros ND I. unfold idx. destruct (index_of_In _ _ I) as (i & E). rewrite E. apply (index_of_spec _ _ _ ND). exact E. Qed.
  Lemma idx_of names i x : NoDup names -> nth_error names i = Some x -> idx names x = i.
  Proof. intros ND E. unfold idx. apply (index_of_spec _ _ _ ND) in E. rewrite E. reflexivity. Qed.

  Lemma targets_itr names (l : list (N * N * A)) qn q a : NoDup names -> (forall q r a, In (q, r, a) l -> In q names /\ In r names) ->
    nth_error names q = Some qn -> targets (map (itr names) l) q a = map (idx names) (targets l qn a).
  Proof.
    intros ND HI Eq. induction l as [|[[q' r'] a'] l IH]; [reflexivity|]. unfold targets in *. cbn [map itr flat_map]. rewrite map_app, IH by (intros; apply (HI q0 r a0); right; assumption). f_equal.
    destruct (HI q' r' a' (or_introl eq_refl)) as [Iq _]. pose proof (idx_spec _ _ ND Iq) as X.
    destruct (eqb_spec q' qn) as [->|Nq].
    - rewrite (idx_of _ _ _ ND Eq), eqb_refl. destruct (eqb a' a); reflexivity.
    - destruct (eqb_spec (idx names q') q) as [Z|]; [|reflexivity]. rewrite Z, Eq in X. congruence.
  Qed.
  Lemma hd_error_map {X Y} (f : X -> Y) l : hd_error (map f l) = option_map f (hd_error l).
  Proof. destruct l; reflexivity. Qed.
  Lemma first_idx names x : NoDup names -> In x names -> (eqb (Some (idx names x)) (Some 0) = eqb (Some x) (hd_error names)).
  Proof.
    intros ND I. pose proof (idx_spec _ _ ND I) as E. destruct (eqb_spec (Some (idx names x)) (Some 0)) as [[= Z]|NZ].
    - rewrite Z in E. destruct names; [discriminate|]. cbn in *. injection E as ->. rewrite eqb_refl. reflexivity.
    - destruct (eqb_spec (Some x) (hd_error names)) as [Z|]; [|reflexivity]. exfalso. apply NZ. f_equal. apply idx_of; [exact ND|]. destruct names; [discriminate|]. cbn in *. congruence.
  Qed.
  Lemma kept_idx names ts : NoDup names -> (forall t, In t ts -> In t names) ->
    kept (Some 0) (map (idx names) ts) = option_map (idx names) (kept (hd_error names) ts).
  Proof.
    intros ND HI. unfold kept. assert (F : find (fun t => negb (eqb (Some t) (Some 0))) (map (idx names) ts) = option_map (idx names) (find (fun t => negb (eqb (Some t) (hd_error names))) ts)).
    { induction ts as [|t ts IH]; [reflexivity|]. cbn [map find]. rewrite first_idx by (auto; apply HI; left; reflexivity). destruct (negb (eqb (Some t) (hd_error names))); [reflexivity|]. apply IH. intros; apply HI; right; assumption. }
    rewrite F. destruct (find _ ts); [reflexivity|]. apply hd_error_map.
  Qed.

  Lemma make_loop_eq names (l : list (N * N * A)) (g : aut A) : (forall q r a, In (q, r, a) l -> In q names /\ In r names) ->
    make_edges names g l = foreach add1 g (map (itr names) l).
  Proof.
    intros HI. unfold make_edges. revert g. induction l as [|[[q r] a] l IH]; intros g; [reflexivity|]. cbn [map foreach itr]. unfold add1 at 1.
    destruct (HI q r a (or_introl eq_refl)) as [Iq Ir]. unfold idx. destruct (index_of_In _ _ Iq) as (i & ->), (index_of_In _ _ Ir) as (j & ->).
    destruct (A_add_edge g i j a) as [g1 [x|ex]]; [|reflexivity]. apply IH. intros; apply (HI q0 r0 a0); right; assumption.
  Qed.
  Lemma imake_loop_eq names (l : list (N * N * A)) (g : iaut A) : (forall q r a, In (q, r, a) l -> In q names /\ In r names) ->
    imake_edges names g l = foreach iadd1 g (map (itr names) l).
  Proof.
    intros HI. unfold imake_edges. revert g. induction l as [|[[q r] a] l IH]; intros g; [reflexivity|]. cbn [map foreach itr]. unfold iadd1 at 1.
    destruct (HI q r a (or_introl eq_refl)) as [Iq Ir]. unfold idx. destruct (index_of_In _ _ Iq) as (i & ->), (index_of_In _ _ Ir) as (j & ->).
    destruct (IA_add_edge g i j a) as [g1 [x|ex]]; [|reflexivity]. apply IH. intros; apply (HI q0 r0 a0); right; assumption.
  Qed.

  Lemma ifinals_loop names (fin : N -> bool) L : forall g : iaut A,
    fold_left (fun g q => match nth_error names q with Some qn => if fin qn then mkIAut (A_set_final (ia_base g) q true) (ia_in g) else g | None => g end) L g =
    mkIAut (fold_left (fun g q => match nth_error names q with Some qn => if fin qn then A_set_final g q true else g | None => g end) L (ia_base g)) (ia_in g).
  Proof.
    induction L as [|q L IH]; intros g; [destruct g; reflexivity|]. cbn [fold_left]. rewrite IH. destruct (nth_error names q) as [qn|]; [|reflexivity]. destruct (fin qn); reflexivity.
  Qed.

  Lemma imake_spec sorted (l : list (N * N * A)) q0n fin : (forall l, Permutation (sorted l) l) ->
    let names := vertex_names sorted l in
    exists m, iwf m /\ make_incidence_automaton sorted l q0n fin = (match make_automaton sorted l q0n fin with Ok g => Ok (mkIAut g m) | Raise e => Raise e end) /\
    (forall q r a, In a (lab m r q) <-> exists qn rn, nth_error names q = Some qn /\ nth_error names r = Some rn /\
       (kept (hd_error names) (targets l qn a) = Some rn \/ (r = 0 /\ hd_error (targets l qn a) = Some rn))) /\
    match make_automaton sorted l q0n fin with
    | Raise e => e = KeyError /\ l <> [] /\ ~ In q0n names
    | Ok g => (l = [] \/ In q0n names) /\ A_vertices g = seq 0 (length names) /\ twf (au_adj g) /\
        (l <> [] -> exists q0, A_initial g = Some q0 /\ nth_error names q0 = Some q0n) /\
        (forall q, A_is_final g q = match nth_error names q with Some qn => fin qn | None => false end) /\
        (forall q r a, tr (au_adj g) q a = Some r <-> exists qn rn, nth_error names q = Some qn /\ nth_error names r = Some rn /\ kept (hd_error names) (targets l qn a) = Some rn)
    end.
  Proof.
    intros HP names. destruct (vertex_names_spec sorted l HP) as [ND HN]. fold names in ND, HN.
    assert (HI : forall q r a, In (q, r, a) l -> In q names /\ In r names) by (intros q r a I; split; apply HN; eauto).
    destruct (iinv_init (A := A) (length names)) as [I0 B0].
    destruct (add_loop (length names) (map (itr names) l) [] (A_init (length names)) (IA_init (length names))) as (g & ig & E & Ei & (M & K & W & HL) & Eb).
    { intros q r a I. apply in_map_iff in I. destruct I as (((q' & r') & a') & [= <- <- <-] & I). destruct (HI _ _ _ I) as [Iq Ir].
      split; (eapply nth_error_Some; rewrite idx_spec by assumption; discriminate). }
    { exact I0. } { exact B0. }
    cbn [app] in *. rewrite Eb in M. destruct M as (M1 & M2 & M3 & M4 & M5 & M6).
    assert (NT : forall q qn a, nth_error names q = Some qn -> targets (map (itr names) l) q a = map (idx names) (targets l qn a)) by (intros; apply targets_itr; assumption).
    assert (NT0 : forall q a, nth_error names q = None -> targets (map (itr names) l) q a = []).
    { intros q a Eq. destruct (targets (map (itr names) l) q a) as [|r rs] eqn:Et; [reflexivity|]. exfalso. assert (I : In r (targets (map (itr names) l) q a)) by (rewrite Et; left; reflexivity).
      apply In_targets in I. apply in_map_iff in I. destruct I as (((q' & r') & a') & [= <- <- <-] & I). destruct (HI _ _ _ I) as [Iq _]. rewrite (idx_spec _ _ ND Iq) in Eq. discriminate. }
    assert (TI : forall qn a t, In t (targets l qn a) -> In t names) by (intros qn a t I; apply In_targets in I; apply (HI _ _ _ I)).
    assert (HT : forall q r a, kept (Some 0) (targets (map (itr names) l) q a) = Some r <-> exists qn rn, nth_error names q = Some qn /\ nth_error names r = Some rn /\ kept (hd_error names) (targets l qn a) = Some rn).
    { intros q r a. destruct (nth_error names q) as [qn|] eqn:Eq.
      - rewrite (NT q qn a Eq), kept_idx by (auto; intros; eapply TI; eassumption). split.
        + intros X. destruct (kept (hd_error names) (targets l qn a)) as [rn|] eqn:Ek; [|discriminate]. injection X as <-. exists qn, rn. split; [reflexivity|]. split; [|exact Ek].
          apply idx_spec; [exact ND|]. eapply TI. eapply kept_In. exact Ek.
        + intros (qn' & rn & [= <-] & Er & ->). cbn. f_equal. apply idx_of; assumption.
      - rewrite (NT0 q a Eq). split; [discriminate|]. intros (? & ? & X & _). discriminate. }
    exists (ia_in ig). split; [exact W|].
    assert (V : A_vertices g = seq 0 (length names)) by exact M2.
    assert (NE : l <> [] -> names <> []). { intros Hl Hn. destruct l as [|[[q r] a] l']; [congruence|]. destruct (HI q r a (or_introl eq_refl)) as [Iq _]. rewrite Hn in Iq. destruct Iq. }
    assert (EN' : l = [] -> names = []). { intros ->. destruct names as [|x nn]; [reflexivity|]. destruct (proj1 (HN x) (or_introl eq_refl)) as (? & ? & [[]|[]]). }
    unfold make_incidence_automaton, make_automaton. fold names. rewrite (make_loop_eq names l _ HI), (imake_loop_eq names l _ HI), E, Ei. unfold IA_vertices. rewrite Eb. rewrite V.
    split; [|split].
    - destruct (length names) as [|n] eqn:EL; cbn [seq].
      + rewrite ifinals_loop, Eb. reflexivity.
      + destruct (index_of names q0n) as [q0|]; [|reflexivity]. rewrite ifinals_loop. cbn [ia_base ia_in]. rewrite ?Eb. reflexivity.
    - intros q r a. rewrite HL, HT. split.
      + intros [(qn & rn & X & Y & Z)|[-> X]]; [exists qn, rn; auto|]. destruct (nth_error names q) as [qn|] eqn:Eq; [|rewrite (NT0 q a Eq) in X; discriminate].
        rewrite (NT q qn a Eq), hd_error_map in X. destruct (hd_error (targets l qn a)) as [rn|] eqn:Eh; [|discriminate]. injection X as X. exists qn, rn. split; [reflexivity|].
        split; [|right; auto]. rewrite <- X. apply idx_spec; [exact ND|]. apply (TI qn a). destruct (targets l qn a); [discriminate|]. injection Eh as ->. left. reflexivity.
      + intros (qn & rn & X & Y & [Z|[-> Z]]); [left; eauto|]. right. split; [reflexivity|]. rewrite (NT q qn a X), hd_error_map, Z. cbn. f_equal. apply idx_of; assumption.
    - assert (FIN : forall g1, au_adj g1 = au_adj g -> au_final g1 = au_final g -> (l = [] \/ In q0n names) -> (l <> [] -> exists q0, A_initial g1 = Some q0 /\ nth_error names q0 = Some q0n) ->
        let g2 := fold_left (fun g q => match nth_error names q with Some qn => if fin qn then A_set_final g q true else g | None => g end) (A_vertices g1) g1 in
        (l = [] \/ In q0n names) /\ A_vertices g2 = seq 0 (length names) /\ twf (au_adj g2) /\
        (l <> [] -> exists q0, A_initial g2 = Some q0 /\ nth_error names q0 = Some q0n) /\
        (forall q, A_is_final g2 q = match nth_error names q with Some qn => fin qn | None => false end) /\
        (forall q r a, tr (au_adj g2) q a = Some r <-> exists qn rn, nth_error names q = Some qn /\ nth_error names r = Some rn /\ kept (hd_error names) (targets l qn a) = Some rn)).
      { intros g1 Ea Ef Hq Hi g2. pose proof (finals_loop names fin (A_vertices g1) g1) as FL. cbv zeta in FL. fold g2 in FL. destruct FL as (F0 & F1 & F2 & F3).
        split; [exact Hq|]. split; [unfold A_vertices; rewrite F1, Ea; exact V|]. split; [rewrite F1, Ea; exact M3|]. split; [intros Hl; unfold A_initial; rewrite F2; exact (Hi Hl)|]. split.
        - intros q. unfold A_is_final. rewrite F3, Ef, M5. destruct (nth_error names q) as [qn|] eqn:En; [|rewrite andb_false_r; reflexivity].
          assert (mem q (A_vertices g1) = true) as ->; [|destruct (fin qn); reflexivity]. apply mem_spec. unfold A_vertices. rewrite Ea, M2. apply in_seq. assert (q < length names) by (apply nth_error_Some; congruence). lia.
        - intros q r a. rewrite F1, Ea, M6. apply HT. }
      destruct (length names) as [|n] eqn:EL; cbn [seq].
      + assert (names = []) as Z by (destruct names; [reflexivity|discriminate]). assert (l = []) as Zl by (destruct l; [reflexivity|exfalso; apply NE; [discriminate|exact Z]]).
        specialize (FIN g eq_refl eq_refl (or_introl Zl)). cbv zeta in FIN. rewrite V in FIN. cbn [seq] in FIN. apply FIN. congruence.
      + destruct (index_of names q0n) as [q0|] eqn:Eq.
        * apply (index_of_spec _ _ _ ND) in Eq. specialize (FIN (A_set_initial g (Some q0) true) eq_refl eq_refl (or_intror (nth_error_In _ _ Eq))). apply FIN. intros _. exists q0. auto.
        * split; [reflexivity|]. split; [intros Zl; apply EN' in Zl; rewrite Zl in EL; discriminate|]. intros I. destruct (index_of_In _ _ I) as (i & X). congruence.
  Qed.
End Names.
