(** moore_determination: the subset construction. *)
From Verif Require Import Base BaseProofs Graph GraphProofs Automaton AutomatonProofs Nfa NfaSpec NfaProofs.
#[local] Arguments dkeys : simpl never.

Lemma seteqb_spec s t : seteqb s t = true <-> forall x, In x s <-> In x t.
Proof.
  unfold seteqb. rewrite andb_true_iff, !forallb_forall. split.
  - intros [H1 H2] x. split; intros I; [apply H1 in I|apply H2 in I]; apply mem_spec; exact I.
  - intros HI. split; intros x I; apply mem_spec; apply HI; exact I.
Qed.

(** sublists of a list, and their number *)
Fixpoint powerset (l : list nat) : list (list nat) :=
  match l with [] => [[]] | x :: l' => powerset l' ++ map (cons x) (powerset l') end.
Lemma powerset_length l : length (powerset l) = 2 ^ length l.
Proof. induction l as [|x l IH]; cbn; [reflexivity|]. rewrite app_length, map_length, IH. lia. Qed.
Lemma filter_powerset f l : In (filter f l) (powerset l).
Proof.
  induction l as [|x l IH]; cbn; [auto|]. apply in_app_iff. destruct (f x); [right; apply in_map; exact IH|left; exact IH].
Qed.
Definition distinct (ks : list (list nat)) : Prop := ForallOrdPairs (fun s t => seteqb s t = false) ks.
Lemma distinct_bound U ks : distinct ks -> (forall s x, In s ks -> In x s -> In x U) -> length ks <= 2 ^ length U.
Proof.
  intros D HU. rewrite <- powerset_length. rewrite <- (map_length (fun s => filter (fun x => mem x s) U) ks).
  apply NoDup_incl_length.
  - induction D as [|s ks F D IH]; cbn; [constructor|]. constructor; [|apply IH; intros t x I; apply HU; right; exact I].
    rewrite in_map_iff. intros (t & E & I). rewrite Forall_forall in F. specialize (F t I).
    assert (X : seteqb s t = true); [|congruence]. apply seteqb_spec. intros x.
    assert (Y : In x (filter (fun x => mem x s) U) <-> In x (filter (fun x => mem x t) U)) by (rewrite E; reflexivity).
    rewrite !filter_In, !mem_spec in Y.
    split; intros Z; apply Y; (split; [|exact Z]); (apply (HU s); [left; reflexivity|exact Z]) || (apply (HU t); [right; exact I|exact Z]).
  - intros x I. apply in_map_iff in I. destruct I as (s & <- & _). apply filter_powerset.
Qed.
Lemma distinct_snoc ks s : distinct ks -> (forall t, In t ks -> seteqb t s = false) -> distinct (ks ++ [s]).
Proof.
  induction 1 as [|t ks F D IH]; cbn; intros HS.
  - constructor; constructor.
  - constructor; [|apply IH; intros x I; apply HS; right; exact I]. rewrite Forall_forall in *. intros x I. apply in_app_iff in I.
    destruct I as [I|[<-|[]]]; [apply F; exact I|apply HS; left; reflexivity].
Qed.

Section P.
  Context {A : Type} {EA : EqDec A}.
  Variable g : nfa A.
  Variable complete : bool.
  Notation T := (ntrans g).
  Notation eps := (nf_eps g).

  Lemma fget_In m s q : fget m s = Some q -> exists k, In (k, q) m /\ seteqb k s = true.
  Proof.
    induction m as [|[k r] m IH]; cbn; [discriminate|]. destruct (seteqb k s) eqn:E.
    - intros X. injection X as ->. exists k. auto.
    - intros X. destruct (IH X) as (k' & I & K). exists k'. auto.
  Qed.
  Lemma fget_None m s : fget m s = None -> forall k, In k (map fst m) -> seteqb k s = false.
  Proof.
    induction m as [|[k r] m IH]; cbn; [intros _ k []|]. destruct (seteqb k s) eqn:E; [discriminate|].
    intros X k' [<-|I]; [exact E|]. apply IH; assumption.
  Qed.
  Lemma fget_key m s q : distinct (map fst m) -> In (s, q) m -> fget m s = Some q.
  Proof.
    induction m as [|[k r] m IH]; cbn; [intros _ []|]. intros D [X|I].
    - injection X as -> ->. assert (E : seteqb s s = true) by (apply seteqb_spec; tauto). rewrite E. reflexivity.
    - inversion D as [|? ? F D' E]; subst. rewrite Forall_forall in F. rewrite (F s); [apply IH; assumption|].
      apply (in_map fst) in I. exact I.
  Qed.

  (** the set [s] of the states reached from [qs] by [a] *)
  Definition is_step (qs : list nat) (a : A) (s : list nat) : Prop := forall t, In t s <-> exists q, In q qs /\ wide g q a t.
  Definition in_sigma (qs : list nat) (a : A) : Prop := exists s, moore_sigma g complete qs = Some s /\ In a s.

  Lemma sigma_total qs : exists s, moore_sigma g complete qs = Some s /\ NoDup s /\ (forall a, In a s -> a <> eps) /\
    (forall a q t, a <> eps -> In q qs -> wide g q a t -> In a s).
  Proof.
    unfold moore_sigma. destruct complete.
    - exists (N_alphabet g). split; [reflexivity|]. split; [apply NoDup_sof|]. split; [apply alphabet_noeps|].
      intros a q t N _ (p & r & _ & X & _). eapply alphabet_spec; eassumption.
    - destruct (omap_spec (N_sigma g) (fun q s => (forall a, In a s -> a <> eps) /\ forall a t, a <> eps -> wide g q a t -> In a s) qs) as (l & -> & F).
      { intros q. destruct (sigma_spec g q) as (s & E & X). exists s. split; [exact E|]. split; [|exact X]. intros a. apply (sigma_noeps g q). exact E. }
      cbn. exists (sof (concat l)). split; [reflexivity|]. split; [apply NoDup_sof|].
      assert (X : (forall a, In a (concat l) -> a <> eps) /\ (forall a q t, a <> eps -> In q qs -> wide g q a t -> In a (concat l))).
      { clear - F. induction F as [|q s qs l [H1 H2] F [IH1 IH2]]; cbn; [split; [intros a []|intros a q t _ []]|]. split.
        - intros a I. apply in_app_iff in I. destruct I; auto.
        - intros a q' t N [<-|I] W; apply in_app_iff; eauto. }
      destruct X as [X1 X2]. split; [intros a I; apply X1; apply (proj1 (In_sof a _)); exact I|].
      intros a q t N I W. apply In_sof. eapply X2; eassumption.
  Qed.

  (** all the states a subset may contain *)
  Definition universe : list nat := sof (nf_init g ++ ntargets g).
  Definition good (s : list nat) : Prop := closed g s /\ forall x, In x s -> In x universe.

  Lemma wide_target q a t : wide g q a t -> In t universe.
  Proof.
    intros (p & r & _ & X & St). apply In_sof, in_app_iff. right. apply T_target in X.
    induction St as [r|r r' t Y St IH]; [exact X|]. apply IH. eapply T_target. exact Y.
  Qed.
  Lemma good_step qs a s : is_step qs a s -> good s.
  Proof.
    intros HS. split; [eapply closed_step; exact HS|]. intros x I. apply HS in I. destruct I as (q & _ & W). eapply wide_target. exact W.
  Qed.
  Lemma good_init s : (forall t, In t s <-> exists q, In q (nf_init g) /\ eps_star T eps q t) -> good s.
  Proof.
    intros HS. split; [eapply closed_eps; exact HS|]. intros x I. apply HS in I. destruct I as (q & I & St). unfold universe. apply In_sof, in_app_iff.
    destruct St as [q|q r t X St]; [left; exact I|]. right. apply T_target in X. induction St as [r|r r' t Y St IH]; [exact X|].
    apply IH. eapply T_target. exact Y.
  Qed.

  (** The invariant. [todo] are the unprocessed subsets; [done q a] tells that the transition from the
      state [q] being processed by [a] is installed. *)
  Record MI (d : aut A) (m : list (list nat * nat)) (todo : list (list nat)) (cur : option (list nat)) (rest : list A) : Prop := {
    m_last : au_last d = length m;
    m_num : map snd m = seq 0 (length m);
    m_V : A_vertices d = seq 0 (length m);
    m_q0 : A_initial d = Some 0;
    m_dist : distinct (map fst m);
    m_good : forall s q, In (s, q) m -> good s;
    m_fin : forall s q, In (s, q) m -> A_is_final d q = existsb (nf_final g) s;
    m_fresh : forall q, length m <= q -> A_is_final d q = false;
    m_todo : forall s, In s todo -> In s (map fst m) /\ cur <> Some s;
    m_nd : NoDup todo;
    m_sound : forall q a r, A_delta d q a = Some r -> exists s t, In (s, q) m /\ In (t, r) m /\ is_step s a t /\ in_sigma s a;
    m_done : forall s q a, In (s, q) m -> ~ In s todo -> in_sigma s a -> (cur = Some s -> ~ In a rest) -> A_delta d q a <> None;
    m_not : forall s q a, In (s, q) m -> (In s todo \/ (cur = Some s /\ In a rest)) -> A_delta d q a = None }.

  Lemma m_inj d m todo cur rest s s' q : MI d m todo cur rest -> In (s, q) m -> In (s', q) m -> s = s'.
  Proof.
    intros I I1 I2. pose proof (m_num _ _ _ _ _ I) as N.
    assert (ND : NoDup (map snd m)) by (rewrite N; apply seq_NoDup). clear - I1 I2 ND.
    induction m as [|[k r] m IH]; cbn in *; [destruct I1|]. inversion ND as [|? ? NI ND']; subst.
    destruct I1 as [X|I1], I2 as [Y|I2]; try congruence.
    - injection X as -> ->. exfalso. apply NI. apply (in_map snd) in I2. exact I2.
    - injection Y as -> ->. exfalso. apply NI. apply (in_map snd) in I1. exact I1.
    - auto.
  Qed.
  Lemma m_lt d m todo cur rest s q : MI d m todo cur rest -> In (s, q) m -> q < length m.
  Proof.
    intros I I1. apply (in_map snd) in I1. rewrite (m_num _ _ _ _ _ I), in_seq in I1. cbn in I1. lia.
  Qed.

  (** adding a subset that has no state yet *)
  Lemma add_state d m todo cur rest s : MI d m todo cur rest -> good s -> fget m s = None -> (cur <> Some s) ->
    exists d', dfa_add_state g d m s = (d', m ++ [(s, length m)], Ok (length m)) /\
      MI d' (m ++ [(s, length m)]) (todo ++ [s]) cur rest /\ forall q a, A_delta d' q a = A_delta d q a.
  Proof.
    intros I G FN NC. unfold dfa_add_state, A_add_vertex. cbn [fst snd]. rewrite (m_last _ _ _ _ _ I).
    set (d1 := mkAut (S (length m)) (dset (au_adj d) (length m) []) (au_q0 d) (au_final d)).
    set (d' := if existsb (N_is_final g) s then A_set_final d1 (length m) true else d1).
    exists d'. split; [reflexivity|].
    assert (NV : ~ In (length m) (dkeys (au_adj d))).
    { change (~ In (length m) (A_vertices d)). rewrite (m_V _ _ _ _ _ I), in_seq. lia. }
    assert (D1 : forall q a, A_delta d1 q a = A_delta d q a).
    { intros q a. unfold A_delta. cbn. rewrite dget_dset. destruct (eqb_spec q (length m)) as [->|]; [|reflexivity].
      rewrite (proj2 (dget_None (au_adj d) (length m)) NV). reflexivity. }
    assert (D : forall q a, A_delta d' q a = A_delta d q a) by (intros q a; rewrite <- D1; unfold d'; destruct (existsb _ s); reflexivity).
    assert (F : forall q, A_is_final d' q = if q =? length m then existsb (nf_final g) s else A_is_final d q).
    { intros q. unfold d', A_is_final. destruct (existsb (N_is_final g) s) eqn:E; cbn.
      - unfold eqb. destruct (Nat.eqb_spec q (length m)), (eq_dec q (length m)); try contradiction; [symmetry; exact E|reflexivity].
      - destruct (Nat.eqb_spec q (length m)) as [->|]; [|reflexivity]. change (A_is_final d (length m) = existsb (nf_final g) s).
        rewrite (m_fresh _ _ _ _ _ I) by lia. symmetry. exact E. }
    assert (Ns : ~ In s (map fst m)).
    { intros X. apply (fget_None _ _ FN) in X. assert (Y : seteqb s s = true) by (apply seteqb_spec; tauto). congruence. }
    split; [|exact D]. pose proof I as I'. destruct I as [I1 I2 I3 I4 I5 I6 I7 I8 I9 I10 I11 I12 I13].
    assert (IM : forall k q, In (k, q) (m ++ [(s, length m)]) <-> In (k, q) m \/ (k = s /\ q = length m)).
    { intros k q. rewrite in_app_iff. cbn. intuition congruence. }
    assert (ID : forall a, A_delta d (length m) a = None).
    { intros a. unfold A_delta. rewrite (proj2 (dget_None (au_adj d) (length m)) NV). reflexivity. }
    assert (Lm : length (m ++ [(s, length m)]) = S (length m)) by (rewrite app_length; cbn; lia).
    constructor.
    - rewrite Lm. unfold d'. destruct (existsb _ s); reflexivity.
    - rewrite Lm, map_app, I2, seq_S. reflexivity.
    - rewrite Lm, seq_S, <- I3. cbn [plus]. unfold d'. transitivity (A_vertices d1); [destruct (existsb _ s); reflexivity|].
      unfold A_vertices. cbn. apply dkeys_dset_new. exact NV.
    - unfold d'. destruct (existsb _ s); exact I4.
    - rewrite map_app. apply distinct_snoc; [exact I5|]. apply fget_None. exact FN.
    - intros k q X. apply IM in X. destruct X as [X|[-> _]]; [eapply I6; exact X|exact G].
    - intros k q X. rewrite F. apply IM in X. destruct X as [X|[-> ->]]; [|rewrite Nat.eqb_refl; reflexivity].
      pose proof (m_lt _ _ _ _ _ _ _ I' X). destruct (Nat.eqb_spec q (length m)); [lia|]. apply I7. exact X.
    - intros q X. rewrite Lm in X. rewrite F. destruct (Nat.eqb_spec q (length m)); [lia|]. apply I8. lia.
    - intros k X. apply in_app_iff in X. rewrite map_app, in_app_iff. destruct X as [X|[<-|[]]].
      + destruct (I9 k X). auto.
      + split; [right; left; reflexivity|exact NC].
    - apply NoDup_snoc; [exact I10|]. intros X. apply I9 in X. tauto.
    - intros q a r X. rewrite D in X. apply I11 in X. destruct X as (k & t & X & Y & Z). exists k, t. rewrite !IM. auto.
    - intros k q a X NT SG HR. rewrite D. apply IM in X. destruct X as [X|[-> ->]].
      + eapply I12; [exact X| |exact SG|exact HR]. intros Y. apply NT. apply in_app_iff. auto.
      + exfalso. apply NT. apply in_app_iff. right. left. reflexivity.
    - intros k q a X Y. rewrite D. apply IM in X. destruct X as [X|[-> ->]]; [|apply ID].
      eapply I13; [exact X|]. destruct Y as [Y|Y]; [|auto]. apply in_app_iff in Y. destruct Y as [Y|[<-|[]]]; [auto|].
      exfalso. apply Ns. apply (in_map fst) in X. exact X.
  Qed.

  (** installing the transition of the symbol [a] *)
  Lemma add_trans d m todo qs q a rest t r : MI d m todo (Some qs) (a :: rest) -> ~ In a rest ->
    In (qs, q) m -> In (t, r) m -> is_step qs a t -> in_sigma qs a ->
    exists d', A_add_edge d q r a = (d', Ok (Some (Edge q r a), true)) /\ MI d' m todo (Some qs) rest /\
      A_delta d' q a = Some r /\ forall p b r', A_delta d p b = Some r' -> A_delta d' p b = Some r'.
  Proof.
    intros I Na Iq It HS SG. unfold A_add_edge.
    assert (DN : A_delta d q a = None).
    { eapply (m_not _ _ _ _ _ I); [exact Iq|]. right. split; [reflexivity|left; reflexivity]. }
    rewrite DN. cbn [negb]. pose proof (m_lt _ _ _ _ _ _ _ I Iq) as Lq.
    destruct (dget (au_adj d) q) as [dq|] eqn:Eq.
    2: { exfalso. apply dget_None in Eq. apply Eq. change (In q (A_vertices d)). rewrite (m_V _ _ _ _ _ I). apply in_seq. lia. }
    eexists. split; [reflexivity|]. set (d' := mkAut _ _ _ _).
    assert (D : forall p b, A_delta d' p b = if (p =? q) && eqb b a then Some r else A_delta d p b).
    { intros p b. unfold A_delta. cbn. rewrite dget_dset. destruct (eqb_spec p q) as [->|N].
      - rewrite Nat.eqb_refl, dget_dset, Eq. reflexivity.
      - destruct (Nat.eqb_spec p q); [contradiction|reflexivity]. }
    split; [|split; [rewrite D, Nat.eqb_refl, eqb_refl; reflexivity|]].
    2: { intros p b r' X. rewrite D. destruct (Nat.eqb_spec p q) as [->|]; [|exact X]. destruct (eqb_spec b a) as [->|]; [congruence|exact X]. }
    destruct I as [I1 I2 I3 I4 I5 I6 I7 I8 I9 I10 I11 I12 I13]. constructor; try assumption.
    - rewrite <- I3. unfold A_vertices. cbn. apply dkeys_dset_old. eapply dget_Some_key. exact Eq.
    - intros p b r' X. rewrite D in X. destruct (Nat.eqb_spec p q) as [->|N], (eqb_spec b a) as [->|Nb]; cbn [andb] in X; try (apply I11; exact X).
      injection X as <-. exists qs, t. auto.
    - intros k p b X NT SG' HR. rewrite D. destruct ((p =? q) && eqb b a) eqn:E; [discriminate|].
      eapply I12; [exact X|exact NT|exact SG'|]. intros Y [<-|Z]; [|apply HR; assumption]. injection Y as ->.
      assert (p = q); [|subst p; rewrite Nat.eqb_refl, eqb_refl in E; discriminate].
      clear - X Iq I5. induction m as [|[k' r] m IH]; cbn in *; [destruct X|]. inversion I5 as [|? ? F D']; subst. rewrite Forall_forall in F.
      destruct X as [X|X], Iq as [Y|Y]; try congruence.
      + injection X as -> ->. apply (in_map fst) in Y. apply F in Y. assert (seteqb k k = true) by (apply seteqb_spec; tauto). cbn in Y. congruence.
      + injection Y as -> ->. apply (in_map fst) in X. apply F in X. assert (seteqb k k = true) by (apply seteqb_spec; tauto). cbn in X. congruence.
      + auto.
    - intros k p b X Y. rewrite D. destruct (Nat.eqb_spec p q) as [->|N].
      2: { cbn [andb]. eapply I13; [exact X|]. destruct Y as [Y|[Y Z]]; [auto|right; split; [exact Y|right; exact Z]]. }
      assert (k = qs).
      { assert (NDs : NoDup (map snd m)) by (rewrite I2; apply seq_NoDup). clear - X Iq NDs.
        induction m as [|[k' r] m IH]; cbn in *; [destruct X|]. inversion NDs as [|? ? NI ND']; subst.
        destruct X as [X|X], Iq as [Y|Y]; try congruence.
        - injection X as -> ->. exfalso. apply NI. apply (in_map snd) in Y. exact Y.
        - injection Y as -> ->. exfalso. apply NI. apply (in_map snd) in X. exact X.
        - auto. }
      subst k. destruct Y as [Y|[_ Y]]; [apply I9 in Y; destruct Y as [_ Y]; congruence|].
      destruct (eqb_spec b a) as [->|]; [contradiction|]. cbn [andb]. eapply I13; [exact X|]. right. split; [reflexivity|right; exact Y].
  Qed.

  Lemma symbols_spec qs q : forall syms d m todo, MI d m todo (Some qs) syms -> NoDup syms -> In (qs, q) m ->
    (forall a, In a syms -> in_sigma qs a) ->
    exists d' m' todo' k, moore_symbols g q qs syms d m todo = Some (d', m', todo', Ok tt) /\
      MI d' m' todo' (Some qs) [] /\ (exists x, m' = m ++ x) /\ length m' = length m + k /\ length todo' = length todo + k /\
      (forall p b r, A_delta d p b = Some r -> A_delta d' p b = Some r) /\ (forall r, length m <= r < length m' -> exists b, A_delta d' q b = Some r).
  Proof.
    induction syms as [|a syms IH]; intros d m todo I ND Iq HS; cbn [moore_symbols].
    - exists d, m, todo, 0. split; [reflexivity|]. split; [exact I|]. split; [exists []; rewrite app_nil_r; reflexivity|]. split; [lia|]. split; [lia|]. split; [auto|]. intros r L. lia.
    - inversion ND as [|? ? Na ND']; subst. destruct (step_spec g qs a) as (rs & -> & H). cbn [obind]. change (is_step qs a rs) in H.
      assert (SG : in_sigma qs a) by (apply HS; left; reflexivity).
      assert (HS' : forall b, In b syms -> in_sigma qs b) by (intros b Ib; apply HS; right; exact Ib).
      destruct (fget m rs) as [r|] eqn:EG.
      + apply fget_In in EG. destruct EG as (k & Ik & K).
        assert (Hk : is_step qs a k) by (intros t; rewrite (proj1 (seteqb_spec k rs) K); apply H).
        destruct (add_trans d m todo qs q a syms k r I Na Iq Ik Hk SG) as (d' & -> & I' & _ & MO).
        destruct (IH d' m todo I' ND' Iq HS') as (d2 & m2 & todo2 & k2 & E & I2 & X2 & L1 & L2 & MO2 & RE2). exists d2, m2, todo2, k2. auto 12.
      + destruct (add_state d m todo (Some qs) (a :: syms) rs I (good_step _ _ _ H) EG) as (d1 & E1 & I1 & D1).
        { intros X. injection X as X. subst rs. apply (fget_key _ _ _ (m_dist _ _ _ _ _ I)) in Iq. congruence. }
        rewrite E1.
        destruct (add_trans d1 _ _ qs q a syms rs (length m) I1 Na) as (d' & -> & I' & DQ & MO).
        * apply in_app_iff. left. exact Iq.
        * apply in_app_iff. right. left. reflexivity.
        * exact H.
        * exact SG.
        * destruct (IH d' _ _ I' ND') as (d2 & m2 & todo2 & k & E & I2 & (x & X) & L1 & L2 & MO2 & RE2); [apply in_app_iff; left; exact Iq|exact HS'|].
          exists d2, m2, todo2, (S k). split; [exact E|]. split; [exact I2|].
          split; [exists ([(rs, length m)] ++ x); rewrite X, <- app_assoc; reflexivity|].
          rewrite app_length in *. cbn [length] in *. split; [lia|]. split; [lia|]. split.
          -- intros p b r Y. apply MO2, MO. rewrite D1. exact Y.
          -- intros r L. destruct (Nat.eq_dec r (length m)) as [->|]; [exists a; apply MO2, DQ|apply RE2; lia].
  Qed.

  Variable opop : set_order (list nat).
  Variable osym : set_order A.
  Hypothesis OP : valid_order opop.
  Hypothesis OS : valid_order osym.

  Lemma m_bound d m todo cur rest : MI d m todo cur rest -> length m <= 2 ^ length universe.
  Proof.
    intros I. rewrite <- (map_length fst). apply distinct_bound; [apply (m_dist _ _ _ _ _ I)|].
    intros s x Is Ix. apply in_map_iff in Is. destruct Is as ([s' q] & <- & Is). apply (m_good _ _ _ _ _ I) in Is. apply Is. exact Ix.
  Qed.

  (** each state but the first one has a transition from an older state *)
  Definition rooted (d : aut A) (m : list (list nat * nat)) : Prop := forall r, 0 < r < length m -> exists q a, q < r /\ A_delta d q a = Some r.
  Lemma loop_spec : forall fuel n d m todo, MI d m todo None [] -> 2 ^ length universe + length todo < fuel + length m ->
    exists d' m', moore_loop g complete opop osym fuel n d m todo = Some (d', Ok tt) /\ MI d' m' [] None [] /\ (exists x, m' = m ++ x) /\ (rooted d m -> rooted d' m').
  Proof.
    induction fuel as [|fuel IH]; intros n d m todo I L.
    - pose proof (m_bound _ _ _ _ _ I). lia.
    - cbn [moore_loop]. pose proof (OP n todo) as P. destruct (opop n todo) as [|qs todo'] eqn:EO.
      + apply Permutation_nil in P. subst todo. exists d, m. split; [reflexivity|]. split; [exact I|]. split; [exists []; symmetry; apply app_nil_r|auto].
      + assert (It : In qs todo) by (eapply Permutation_in; [exact P|left; reflexivity]).
        destruct (m_todo _ _ _ _ _ I qs It) as [Ik _]. apply in_map_iff in Ik. destruct Ik as ([qs' q] & E & Iq). cbn in E. subst qs'.
        rewrite (fget_key _ _ _ (m_dist _ _ _ _ _ I) Iq).
        destruct (sigma_total qs) as (sigma & ES & NS & _ & _). rewrite ES. cbn [obind].
        pose proof (OS n sigma) as PS.
        assert (NDt : NoDup (qs :: todo')) by (eapply Permutation_NoDup; [symmetry; exact P|apply (m_nd _ _ _ _ _ I)]).
        assert (IT : forall s, In s todo <-> s = qs \/ In s todo').
        { intros s. split; intros X.
          - eapply Permutation_in in X; [|symmetry; exact P]. destruct X; auto.
          - eapply Permutation_in; [exact P|]. destruct X as [->|X]; [left; reflexivity|right; exact X]. }
        destruct (symbols_spec qs q (osym n sigma) d m todo') as (d1 & m1 & todo1 & k & E1 & I1 & (x & X) & L1 & L2 & MO & RE).
        * inversion NDt as [|? ? Nq NDt']; subst. destruct I as [I1 I2 I3 I4 I5 I6 I7 I8 I9 I10 I11 I12 I13]. constructor; try assumption.
          -- intros s Is. split; [apply I9; apply IT; auto|]. congruence.
          -- intros s p a Is Nt SG HR. destruct (eq_dec s qs) as [->|Ns].
             ++ exfalso. apply (HR eq_refl). destruct SG as (s' & E & Is'). rewrite ES in E. injection E as <-.
                eapply Permutation_in; [symmetry; exact PS|exact Is'].
             ++ eapply I12; [exact Is| |exact SG|discriminate]. intros Y. apply IT in Y. tauto.
          -- intros s p a Is [Y|[Y _]].
             ++ eapply I13; [exact Is|]. left. apply IT. auto.
             ++ injection Y as <-. eapply I13; [exact Is|]. left. exact It.
        * eapply Permutation_NoDup; [symmetry; exact PS|exact NS].
        * exact Iq.
        * intros a Ia. exists sigma. split; [exact ES|]. eapply Permutation_in; [exact PS|exact Ia].
        * rewrite E1. cbn [obind]. destruct (IH (S n) d1 m1 todo1) as (d' & m' & E & I' & (y & Y) & RO).
          -- destruct I1 as [J1 J2 J3 J4 J5 J6 J7 J8 J9 J10 J11 J12 J13]. constructor; try assumption.
             ++ intros s Is. split; [apply J9; exact Is|discriminate].
             ++ intros s p a Is Nt SG _. eapply J12; [exact Is|exact Nt|exact SG|intros _ []].
             ++ intros s p a Is [Z|[Z _]]; [|discriminate]. eapply J13; [exact Is|]. left. exact Z.
          -- apply Permutation_length in P. cbn [length] in P. lia.
          -- exists d', m'. split; [exact E|]. split; [exact I'|]. split; [exists (x ++ y); rewrite Y, X, app_assoc; reflexivity|]. intros RM. apply RO. intros r Lr.
             destruct (Nat.lt_ge_cases r (length m)) as [Lm|Lm].
             ++ destruct (RM r ltac:(lia)) as (p & b & Lp & Dp). exists p, b. split; [exact Lp|apply MO, Dp].
             ++ destruct (RE r ltac:(lia)) as (b & Db). exists q, b. split; [|exact Db]. pose proof (m_lt _ _ _ _ _ _ _ I Iq). lia.
  Qed.

  (** the language read from a state of the DFA *)
  Lemma lang_spec d m w : MI d m [] None [] -> forall s q, In (s, q) m -> ~ In eps w ->
    A_is_final_opt d (A_delta_word d (Some q) w) = true <-> exists p t, In p s /\ nrun T eps p w t /\ nf_final g t = true.
  Proof.
    intros I. induction w as [|a w IH]; intros s q Is NE.
    - cbn. rewrite (m_fin _ _ _ _ _ I _ _ Is), existsb_exists. destruct (m_good _ _ _ _ _ I _ _ Is) as [C _]. split.
      + intros (t & It & F). exists t, t. split; [exact It|]. split; [constructor|exact F].
      + intros (p & t & Ip & R & F). apply nrun_eps_star in R. exists t. split; [eapply C; eassumption|exact F].
    - assert (Na : a <> eps) by (intros ->; apply NE; left; reflexivity).
      assert (NE' : ~ In eps w) by (intros X; apply NE; right; exact X).
      destruct (m_good _ _ _ _ _ I _ _ Is) as [C _]. cbn [A_delta_word]. destruct (A_delta d q a) as [r|] eqn:D.
      + destruct (m_sound _ _ _ _ _ I _ _ _ D) as (s' & t & Is' & It & HS & _).
        rewrite (m_inj _ _ _ _ _ _ _ _ I Is' Is) in HS. rewrite (IH t r It NE'). split.
        * intros (p & x & Ip & R & F). destruct (proj1 (nrun_step g s a t w x C Na HS)) as (p' & Ip' & R'); [exists p; auto|]. exists p', x. auto.
        * intros (p & x & Ip & R & F). destruct (proj2 (nrun_step g s a t w x C Na HS)) as (p' & Ip' & R'); [exists p; auto|]. exists p', x. auto.
      + assert (X : A_is_final_opt d (A_delta_word d None w) = false) by (destruct w; reflexivity). rewrite X. split; [discriminate|].
        intros (p & x & Ip & R & F). apply nrun_cons_inv in R. destruct R as (p' & r & St & _ & Y & _).
        exfalso. refine (m_done _ _ _ _ _ I s q a Is _ _ _ D); [intros []| |discriminate].
        destruct (sigma_total s) as (sg & ES & _ & _ & HC). exists sg. split; [exact ES|]. eapply HC; [exact Na|exact Ip|].
        exists p', r. split; [exact St|]. split; [exact Y|constructor].
  Qed.

  Lemma moore_run fuel : 2 ^ length universe + 1 <= fuel ->
    exists d, moore_determination g complete opop osym fuel = Some (d, Ok tt) /\
      (forall w, ~ In eps w -> A_accepts d w = true <-> exists q t, In q (nf_init g) /\ nrun T eps q w t /\ nf_final g t = true) /\
      (forall q a, complete = true -> In q (A_vertices d) -> In a (N_alphabet g) -> A_delta d q a <> None) /\
      (forall q a r, A_delta d q a = Some r -> In q (A_vertices d) /\ In r (A_vertices d) /\ a <> eps) /\
      exists m q0s, MI d m [] None [] /\ rooted d m /\ In (q0s, 0) m /\ forall t, In t q0s <-> exists q, In q (nf_init g) /\ eps_star T eps q t.
  Proof.
    intros L. unfold moore_determination. destruct (delta_epsilon_spec g (nf_init g)) as (q0s & -> & H0). cbn [obind].
    unfold dfa_add_state, A_add_vertex, A_init. cbn [A_add_vertices fst snd au_last].
    set (d0 := mkAut 1 _ _ _). set (d1 := if existsb (N_is_final g) q0s then A_set_final d0 0 true else d0).
    assert (D0 : forall q a, A_delta d1 q a = None).
    { intros q a. transitivity (A_delta d0 q a); [unfold d1; destruct (existsb _ q0s); reflexivity|]. unfold d0, A_delta. cbn.
      destruct (eqb q 0); reflexivity. }
    destruct (loop_spec fuel 0 d1 [(q0s, 0)] [q0s]) as (d & m & E & I & (x & X) & RO).
    - constructor.
      + unfold d1. destruct (existsb _ q0s); reflexivity.
      + reflexivity.
      + unfold d1. destruct (existsb _ q0s); reflexivity.
      + unfold d1. destruct (existsb _ q0s); reflexivity.
      + repeat constructor.
      + intros s q [Y|[]]. injection Y as <- <-. apply good_init. exact H0.
      + intros s q [Y|[]]. injection Y as <- <-. unfold d1. change (nf_final g) with (N_is_final g). destruct (existsb (N_is_final g) q0s); reflexivity.
      + cbn [length]. intros q Lq. unfold d1. destruct (existsb _ q0s); unfold A_is_final; cbn; [|reflexivity]. unfold eqb. destruct (eq_dec q 0); [lia|reflexivity].
      + intros s [<-|[]]. split; [left; reflexivity|discriminate].
      + repeat constructor. intros [].
      + intros q a r Y. rewrite D0 in Y. discriminate.
      + intros s q a [Y|[]] N. injection Y as <- <-. exfalso. apply N. left. reflexivity.
      + intros s q a _ _. apply D0.
    - cbn [length]. lia.
    - cbn [app]. change ([] ++ [(q0s, 0)]) with [(q0s, 0)]. rewrite E. exists d. split; [reflexivity|].
      assert (I0 : In (q0s, 0) m) by (rewrite X; left; reflexivity). split; [|split; [|split]].
      + intros w NE. assert (EA' : A_accepts d w = A_is_final_opt d (A_delta_word d (A_initial d) w)).
        { unfold A_accepts. destruct (A_delta_word d (A_initial d) w); reflexivity. }
        rewrite EA', (m_q0 _ _ _ _ _ I), (lang_spec d m w I q0s 0 I0 NE). split.
        * intros (p & t & Ip & R & F). apply H0 in Ip. destruct Ip as (q & Iq & St). exists q, t. split; [exact Iq|]. split; [|exact F].
          eapply nrun_pre; eassumption.
        * intros (q & t & Iq & R & F). exists q, t. split; [|auto]. apply H0. exists q. split; [exact Iq|constructor].
      + intros q a Ct Iq Ia. rewrite (m_V _ _ _ _ _ I), <- (m_num _ _ _ _ _ I) in Iq. apply in_map_iff in Iq. destruct Iq as ([s q'] & Eq & Is).
        cbn in Eq. subst q'. eapply (m_done _ _ _ _ _ I); [exact Is|intros []| |discriminate]. exists (N_alphabet g).
        split; [|exact Ia]. unfold moore_sigma. rewrite Ct. reflexivity.
      + intros q a r D. destruct (m_sound _ _ _ _ _ I _ _ _ D) as (s & t & Is & It & _ & SG).
        rewrite (m_V _ _ _ _ _ I), !in_seq. pose proof (m_lt _ _ _ _ _ _ _ I Is). pose proof (m_lt _ _ _ _ _ _ _ I It).
        split; [lia|]. split; [lia|]. destruct SG as (sg & ES & Ia). destruct (sigma_total s) as (sg' & ES' & _ & NE & _).
        rewrite ES in ES'. injection ES' as <-. apply NE. exact Ia.
      + exists m, q0s. split; [exact I|]. split; [|auto]. apply RO. intros r L'. cbn in L'. lia.
  Qed.
End P.
