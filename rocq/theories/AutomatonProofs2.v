(** IncidenceAutomaton, IncidenceNodeAutomaton, make_automaton. *)
From Verif Require Import Base BaseProofs Graph GraphProofs Automaton AutomatonSpec AutomatonProofs.
#[local] Arguments dkeys : simpl never.

Section IA.
  Context {A : Type} {EA : EqDec A}.
  Notation tadj := (dict nat (dict A nat)).
  Notation iadj := (dict nat (dict nat (list A))).

  (** Deleting the transitions of a list of edges with distinct keys. *)
  Lemma del_adj_spec (m : tadj) p a r : twf m -> tr m p a = Some r ->
    exists m', del_adj m p a = (m', Ok tt) /\ twf m' /\ dkeys m' = dkeys m /\
      forall q b, tr m' q b = if same_key q b (Edge p 0 a) then None else tr m q b.
  Proof.
    intros W E. unfold del_adj. unfold tr in E.
    destruct (dget m p) as [d|] eqn:G; [|discriminate].
    assert (M : dmem d a = true) by (unfold dmem; rewrite E; reflexivity). rewrite M.
    eexists. split; [reflexivity|]. split; [|split].
    - apply twf_dset; [exact W | apply NoDup_ddel; eapply W; exact G].
    - apply dkeys_dset_old. eapply dget_Some_key; exact G.
    - intros q b. rewrite tr_dset. destruct (same_key_spec q b (Edge p 0 a)) as [[X Y]|Nk]; cbn in *.
      + subst. rewrite eqb_refl. rewrite dget_ddel by (eapply W; exact G). rewrite eqb_refl. reflexivity.
      + destruct (eqb_spec q p) as [->|Nq]; [|reflexivity].
        rewrite dget_ddel by (eapply W; exact G). destruct (eqb_spec b a) as [->|]; [tauto|].
        unfold tr. rewrite G. reflexivity.
  Qed.

  Lemma del_adjs_spec (L : list (edge A)) : forall m : tadj, twf m ->
    NoDup L -> (forall e e', In e L -> In e' L -> source e = source e' -> distinguisher e = distinguisher e' -> e = e') ->
    (forall e, In e L -> tr m (source e) (distinguisher e) = Some (target e)) ->
    exists m', foreach (fun m e => del_adj m (source e) (distinguisher e)) m L = (m', Ok tt) /\ twf m' /\
      dkeys m' = dkeys m /\
      forall q b, tr m' q b = if existsb (same_key q b) L then None else tr m q b.
  Proof.
    induction L as [|e L IH]; intros m W ND U I; cbn.
    - exists m. auto.
    - destruct (del_adj_spec m (source e) (distinguisher e) (target e) W) as (m1 & -> & W1 & K1 & T1).
      { apply I. left. reflexivity. }
      inversion ND as [|? ? NI ND']; subst.
      destruct (IH m1 W1 ND') as (m2 & -> & W2 & K2 & T2).
      { intros; apply U; try right; assumption. }
      { intros e' Ie. rewrite T1. destruct (same_key_spec (source e') (distinguisher e') (Edge (source e) 0 (distinguisher e)))
          as [[X Y]|]; cbn in *; [|apply I; right; exact Ie].
        exfalso. apply NI. rewrite (U e e'); [exact Ie|left; reflexivity|right; exact Ie|exact X|exact Y]. }
      exists m2. split; [reflexivity|]. split; [exact W2|]. split; [congruence|].
      intros q b. rewrite T2, T1. unfold same_key. cbn.
      destruct ((source e =? q) && eqb (distinguisher e) b); cbn; [destruct existsb; reflexivity|reflexivity].
  Qed.

  Definition lab (m : iadj) (r q : nat) : list A :=
    match dget m r with None => [] | Some d => match dget d q with None => [] | Some s => s end end.
  Definition iwf (m : iadj) : Prop :=
    NoDup (dkeys m) /\ forall r d, dget m r = Some d ->
      NoDup (dkeys d) /\ forall q s, dget d q = Some s -> NoDup s /\ s <> [].

  Lemma iwf_dset m r d : iwf m -> (NoDup (dkeys d) /\ forall q s, dget d q = Some s -> NoDup s /\ s <> []) ->
    iwf (dset m r d).
  Proof.
    intros [N D] Nd. split; [apply NoDup_dset; exact N|]. intros q' d'. rewrite dget_dset.
    destruct (eqb q' r); [intros [= <-]; exact Nd | apply D].
  Qed.
  Lemma iwf_ddel m q : iwf m -> iwf (ddel m q).
  Proof.
    intros [N D]. split; [apply NoDup_ddel; exact N|]. intros q' d'. rewrite dget_ddel by exact N.
    destruct (eqb q' q); [discriminate | apply D].
  Qed.
  Lemma lab_dset m r d r' q : lab (dset m r d) r' q =
    if eqb r' r then match dget d q with None => [] | Some s => s end else lab m r' q.
  Proof. unfold lab. rewrite dget_dset. destruct (eqb r' r); reflexivity. Qed.
  Lemma lab_ddel m r r' q : NoDup (dkeys m) -> lab (ddel m r) r' q = if eqb r' r then [] else lab m r' q.
  Proof. intros N. unfold lab. rewrite dget_ddel by exact N. destruct (eqb r' r); reflexivity. Qed.

  Lemma In_in_edges (g : iaut A) r q r' a : iwf (ia_in g) ->
    (In (Edge q r' a) (IA_in_edges g r) <-> r' = r /\ In a (lab (ia_in g) r q)).
  Proof.
    intros [N D]. unfold IA_in_edges, lab. destruct (dget (ia_in g) r) as [d|] eqn:E; [|cbn; tauto].
    destruct (D _ _ E) as [Nd _]. rewrite in_flat_map. split.
    - intros ((q' & s) & I & J). apply in_map_iff in J. destruct J as (a' & [= -> -> ->] & J).
      split; [reflexivity|]. apply In_dget in I; [|exact Nd]. rewrite I. exact J.
    - intros [-> J]. destruct (dget d q) as [s|] eqn:G; [|destruct J].
      exists (q, s). split; [apply dget_In; exact G|]. apply in_map_iff. exists a. auto.
  Qed.

  Lemma NoDup_in_edges (g : iaut A) r : iwf (ia_in g) -> NoDup (IA_in_edges g r).
  Proof.
    intros [N D]. unfold IA_in_edges. destruct (dget (ia_in g) r) as [d|] eqn:E; [|constructor].
    destruct (D _ _ E) as [Nd Ds]. apply NoDup_flat_map.
    - apply NoDup_dict. exact Nd.
    - intros (q & s) I. apply In_dget in I; [|exact Nd]. apply Ds in I.
      apply NoDup_map_inj_in; [apply I|]. intros x y _ _ [= ->]. reflexivity.
    - intros (q & s) (q' & s') e I I' J J'. apply in_map_iff in J, J'.
      destruct J as (a & <- & J), J' as (a' & [= -> ->] & J').
      apply In_dget in I; [|exact Nd]. apply In_dget in I'; [|exact Nd]. congruence.
  Qed.

  Definition iarep (g : iaut A) (s : aaut A) : Prop :=
    arep (ia_base g) s /\ dkeys (ia_in g) = aa_V s /\ iwf (ia_in g) /\
    (forall q r a, In a (lab (ia_in g) r q) <-> In (Edge q r a) (aa_T s)) /\
    (forall e, In e (aa_T s) -> In (source e) (aa_V s) /\ In (target e) (aa_V s)).

  Lemma iarep_in_edges g s r : iarep g s ->
    Permutation (IA_in_edges g r) (filter (fun e => target e =? r) (IA_edges g)).
  Proof.
    intros (R & K & W & L & C). apply NoDup_Permutation.
    - apply NoDup_in_edges. exact W.
    - apply NoDup_filter. apply NoDup_tedges. apply R.
    - intros [q r' a]. rewrite In_in_edges by exact W. rewrite L, filter_In. cbn.
      change (IA_edges g) with (tedges (au_adj (ia_base g))).
      destruct R as (_ & _ & Wt & [_ Tr] & _). rewrite In_tedges by exact Wt. rewrite Tr.
      destruct (Nat.eqb_spec r' r) as [->|]; intuition congruence.
  Qed.

  Lemma lab_nonempty m r q : iwf m ->
    (exists d s, dget m r = Some d /\ dget d q = Some s) <-> exists a, In a (lab m r q).
  Proof.
    intros [N D]. unfold lab. split.
    - intros (d & s & E & G). rewrite E, G. destruct (D _ _ E) as [_ Ds]. destruct (Ds _ _ G) as [_ NE].
      destruct s as [|a s]; [congruence|]. exists a. left. reflexivity.
    - intros (a & I). destruct (dget m r) as [d|]; [|destruct I]. destruct (dget d q) as [s|] eqn:G; [|destruct I].
      eauto.
  Qed.

  Lemma out_steps_spec q (L : list (edge A)) : forall m : iadj, iwf m ->
    (forall e, In e L -> In (target e) (dkeys m)) ->
    exists m', foreach (fun m (e : edge A) =>
        match dget m (target e) with
        | None => (m, Raise KeyError)
        | Some d => if dmem d q then (dset m (target e) (ddel d q), Ok tt) else (m, Ok tt)
        end) m L = (m', Ok tt) /\ iwf m' /\ dkeys m' = dkeys m /\
      forall r p, lab m' r p = if (p =? q) && existsb (fun e => target e =? r) L then [] else lab m r p.
  Proof.
    induction L as [|e L IH]; intros m W I; cbn.
    - exists m. split; [reflexivity|]. split; [exact W|]. split; [reflexivity|]. intros r p.
      rewrite andb_false_r. reflexivity.
    - assert (Ik := I e (or_introl eq_refl)). apply key_dget in Ik. destruct Ik as (d & E). rewrite E.
      destruct (proj2 W _ _ E) as [Nd Ds].
      assert (Hnext : exists m1, (if dmem d q then (dset m (target e) (ddel d q), Ok tt) else (m, Ok tt)) = (m1, Ok tt)
         /\ iwf m1 /\ dkeys m1 = dkeys m /\
         forall r p, lab m1 r p = if (p =? q) && (target e =? r) then [] else lab m r p).
      { destruct (dmem d q) eqn:M.
        - eexists. split; [reflexivity|]. split; [|split].
          + apply iwf_dset; [exact W|]. split; [apply NoDup_ddel; exact Nd|]. intros q' s'.
            rewrite dget_ddel by exact Nd. destruct (eqb q' q); [discriminate|apply Ds].
          + apply dkeys_dset_old. eapply dget_Some_key; exact E.
          + intros r p. rewrite lab_dset. destruct (eqb_spec r (target e)) as [->|Nr].
            * rewrite Nat.eqb_refl, andb_true_r. rewrite dget_ddel by exact Nd.
              destruct (eqb_spec p q), (Nat.eqb_spec p q); try congruence.
              unfold lab. rewrite E. reflexivity.
            * destruct (Nat.eqb_spec (target e) r); [congruence|]. rewrite andb_false_r. reflexivity.
        - exists m. split; [reflexivity|]. split; [exact W|]. split; [reflexivity|]. intros r p.
          destruct (Nat.eqb_spec p q) as [->|]; [|reflexivity]. destruct (Nat.eqb_spec (target e) r) as [<-|]; [|reflexivity].
          cbn. unfold lab. rewrite E. apply dmem_false in M. rewrite (proj2 (dget_None d q) M). reflexivity. }
      destruct Hnext as (m1 & -> & W1 & K1 & L1).
      destruct (IH m1 W1) as (m2 & -> & W2 & K2 & L2).
      { intros e' Ie. rewrite K1. apply I. right. exact Ie. }
      exists m2. split; [reflexivity|]. split; [exact W2|]. split; [congruence|].
      intros r p. rewrite L2, L1. destruct (p =? q), (target e =? r), (existsb (fun e0 => target e0 =? r) L); reflexivity.
  Qed.

  Lemma keys_same_key (T : list (edge A)) m : trep m T -> forall e e', In e T -> In e' T ->
    source e = source e' -> distinguisher e = distinguisher e' -> e = e'.
  Proof.
    intros [_ R] [q r a] [q' r' a'] I I' E1 E2. cbn in *. subst. apply R in I, I'. congruence.
  Qed.

  Lemma IA_remove_vertex_spec g s u : iarep g s ->
    exists g', IA_remove_vertex g u = (g', Ok tt) /\
      iarep g' (AA (aa_next s) (filter (fun v => negb (v =? u)) (aa_V s)) (drop_incident u (aa_T s)) (aa_q0 s) (aa_final s)).
  Proof.
    intros RR. pose proof RR as (R & K & W & L & C). unfold IA_remove_vertex.
    destruct (mem_reflect u (aa_V s)) as [Iu|Nu].
    - assert (M : dmem (ia_in g) u = true) by (apply dmem_spec; rewrite K; exact Iu). rewrite M.
      pose proof R as (HL & KV & Wt & Rt & Q & F & LT).
      assert (IE : forall e, In e (IA_in_edges g u) <-> In e (aa_T s) /\ target e = u).
      { intros [q r a]. rewrite In_in_edges by exact W. rewrite L. cbn. split; intros [X Y]; subst; auto. }
      destruct (del_adjs_spec (IA_in_edges g u) (au_adj (ia_base g)) Wt) as (m1 & E1 & W1 & K1 & T1).
      { apply NoDup_in_edges. exact W. }
      { intros e e' I I'. apply IE in I, I'. apply (keys_same_key _ _ Rt); tauto. }
      { intros [q r a] I. apply IE in I. cbn. apply Rt. tauto. }
      match goal with |- context [foreach ?f ?x ?y] => change (foreach f x y) with
        (foreach (fun m (e : edge A) => del_adj m (source e) (distinguisher e)) (au_adj (ia_base g)) (IA_in_edges g u)) end.
      rewrite E1. cbn [ia_base au_adj ia_in].
      assert (F1 : forall q a r, tr m1 q a = Some r <-> tr (au_adj (ia_base g)) q a = Some r /\ r <> u).
      { intros q a r. rewrite T1. destruct existsb eqn:B.
        - apply existsb_exists in B. destruct B as (e & I & B). apply IE in I. destruct I as [I Iu'].
          destruct (same_key_spec q a e) as [[X Y]|]; [|discriminate].
          destruct e as [q' r' a']. cbn in *. subst. apply Rt in I. rewrite I. split; [discriminate|]. intros [[= <-] Z]. congruence.
        - split; [|tauto]. intros E. split; [exact E|]. intros ->. apply Rt in E.
          apply not_true_iff_false in B. apply B. apply existsb_exists. exists (Edge q u a).
          split; [apply IE; auto|]. destruct (same_key_spec q a (Edge q u a)); [reflexivity|]. cbn in *. tauto. }
      assert (M1 : dmem m1 u = true) by (apply dmem_spec; rewrite K1, KV; exact Iu). rewrite M1.
      assert (OE : forall e, In e (A_out_edges (mkAut (au_last (ia_base g)) m1 (au_q0 (ia_base g)) (au_final (ia_base g))) u)
               <-> In e (aa_T s) /\ source e = u /\ target e <> u).
      { intros [q r a]. unfold A_out_edges. cbn [au_adj]. split.
        - destruct (dget m1 u) as [d|] eqn:E; [|intros []]. intros I. apply in_map_iff in I.
          destruct I as ((a' & r') & [= -> -> ->] & I). cbn.
          assert (G : tr m1 q a = Some r) by (unfold tr; rewrite E; apply In_dget; [eapply W1; exact E|exact I]).
          apply F1 in G. destruct G as [G G']. apply Rt in G. tauto.
        - cbn. intros (I & -> & Nr). apply Rt in I. assert (G : tr m1 u a = Some r) by (apply F1; tauto).
          unfold tr in G. destruct (dget m1 u) as [d|]; [|discriminate]. apply in_map_iff. exists (a, r).
          split; [reflexivity|apply dget_In; exact G]. }
      destruct (out_steps_spec u (A_out_edges (mkAut (au_last (ia_base g)) m1 (au_q0 (ia_base g)) (au_final (ia_base g))) u)
         (ddel (ia_in g) u)) as (m2 & E2 & W2 & K2 & L2).
      { apply iwf_ddel. exact W. }
      { intros e I. apply OE in I. destruct I as (I & _ & Nr). rewrite dkeys_ddel by apply W. apply In_srem.
        split; [exact Nr|]. rewrite K. apply C. exact I. }
      rewrite E2. eexists. split; [reflexivity|].
      assert (KF : forall l, srem u l = filter (fun v => negb (v =? u)) l).
      { intros l. unfold srem. apply filter_ext. intros v. f_equal. destruct (eqb_spec u v), (Nat.eqb_spec v u); congruence. }
      unfold iarep. cbn [ia_base ia_in aa_V aa_T aa_next aa_q0 aa_final].
      split; [|split; [|split; [|split]]].
      + unfold arep. cbn. split; [exact HL|]. split.
        { rewrite dkeys_ddel by apply W1. rewrite K1, KV. apply KF. }
        split; [apply twf_ddel; exact W1|]. split.
        { eapply trep_drop_incident; [exact Rt|]. intros q a r. rewrite tr_ddel by apply W1.
          destruct (eqb_spec q u) as [->|Nq]; [split; [discriminate|tauto]|]. rewrite F1. tauto. }
        split; [exact Q|]. split; [exact F|]. intros v Iv. apply filter_In in Iv. apply LT. tauto.
      + rewrite K2, dkeys_ddel by apply W. rewrite K. apply KF.
      + exact W2.
      + intros q r a. rewrite L2, lab_ddel by apply W. unfold drop_incident. rewrite filter_In. cbn.
        destruct (Nat.eqb_spec q u) as [->|Nq]; cbn [andb orb negb].
        * destruct (existsb) eqn:B; [split; [intros []|intros [_ X]; discriminate X]|].
          destruct (eqb_spec r u) as [->|Nr]; [split; [intros []|intros [_ X]; discriminate X]|].
          rewrite L. split; [|intros [_ X]; discriminate X]. intros I. exfalso.
          apply not_true_iff_false in B. apply B. apply existsb_exists. exists (Edge u r a).
          split; [apply OE; auto|]. cbn. apply Nat.eqb_refl.
        * destruct (eqb_spec r u) as [->|Nr].
          -- rewrite Nat.eqb_refl. split; [intros []|intros [_ X]; discriminate X].
          -- rewrite L. destruct (Nat.eqb_spec r u); [congruence|]. cbn. tauto.
      + intros [q r a] I. unfold drop_incident in I. apply filter_In in I. cbn in *. destruct I as [I B].
        apply C in I. cbn in I. rewrite !filter_In.
        destruct (Nat.eqb_spec q u), (Nat.eqb_spec r u); cbn in B; try discriminate. tauto.
    - assert (M : dmem (ia_in g) u = false) by (apply dmem_false; rewrite K; exact Nu). rewrite M.
      assert (M' : dmem (au_adj (ia_base g)) u = false).
      { apply dmem_false. destruct R as (_ & -> & _). exact Nu. }
      rewrite M'. exists g. split; [reflexivity|].
      assert (E1 : filter (fun v => negb (v =? u)) (aa_V s) = aa_V s).
      { apply filter_id. intros v I. destruct (Nat.eqb_spec v u); [congruence|reflexivity]. }
      assert (E2 : drop_incident u (aa_T s) = aa_T s).
      { apply filter_id. intros e I. apply C in I.
        destruct (Nat.eqb_spec (source e) u) as [Z|], (Nat.eqb_spec (target e) u) as [Z'|]; try reflexivity;
          exfalso; apply Nu; try rewrite <- Z; try rewrite <- Z'; tauto. }
      rewrite E1, E2. destruct s; exact RR.
  Qed.

  Lemma IA_clear_aux L : forall g s, iarep g s ->
    exists g' s', foreach IA_remove_vertex g L = (g', Ok tt) /\ iarep g' s' /\
      aa_V s' = filter (fun v => negb (mem v L)) (aa_V s) /\ aa_next s' = aa_next s /\ aa_q0 s' = aa_q0 s /\ aa_final s' = aa_final s.
  Proof.
    induction L as [|u L IH]; intros g s R; cbn.
    - exists g, s. split; [reflexivity|]. split; [exact R|]. split; [symmetry; apply filter_id; reflexivity|auto].
    - destruct (IA_remove_vertex_spec g s u R) as (g1 & -> & R1).
      destruct (IH _ _ R1) as (g' & s' & -> & R' & V & N & Q & F). cbn in V, N, Q, F.
      exists g', s'. split; [reflexivity|]. split; [exact R'|]. split; [|auto].
      rewrite V. clear. induction (aa_V s) as [|x l IH]; cbn; [reflexivity|].
      destruct (Nat.eqb_spec x u) as [->|Nx]; cbn.
      + rewrite eqb_refl. cbn. exact IH.
      + destruct (eqb_spec x u) as [->|]; [congruence|]. cbn. unfold mem in *.
        destruct (existsb (eqb x) L); cbn; [exact IH | f_equal; exact IH].
  Qed.

  Lemma IA_step g s op : iarep g s -> ia_disciplined s op ->
    iarep (fst (IA_call g op)) (fst (ia_step s op)) /\ snd (IA_call g op) = snd (ia_step s op).
  Proof.
    intros RR Hd. pose proof RR as (R & K & W & L & C).
    destruct op as [|q r a|e|u|q b|q b|]; cbn [IA_call ia_step] in *.
    - unfold IA_add_vertex. destruct (A_step _ _ AAddVertex R) as [R' O]. cbn in R', O.
      destruct s as [k V T q0 f]. cbn in *. split; [|exact O].
      assert (HL := proj1 R). cbn in HL. rewrite HL in *.
      assert (NI : ~ In k (dkeys (ia_in g))).
      { rewrite K. intros I. destruct R as (_ & _ & _ & _ & _ & _ & LT). apply LT in I. cbn in I. lia. }
      split; [exact R'|]. cbn. split; [rewrite dkeys_dset_new by exact NI; rewrite K; reflexivity|].
      split; [apply iwf_dset; [exact W|split; [constructor|discriminate]]|]. split.
      + intros q r a. rewrite lab_dset. rewrite <- L. destruct (eqb_spec r k) as [->|]; [|tauto].
        unfold lab. rewrite (proj2 (dget_None _ _) NI). tauto.
      + intros e I. apply C in I. rewrite !in_app_iff. tauto.
    - destruct Hd as (Iq & Ir & N0). unfold IA_add_edge. destruct (A_step _ _ (AAddEdge q r a) R) as [R' O].
      cbn [A_call aa_step] in R', O. unfold A_add_edge in *. rewrite (obs_delta _ _ R) in *.
      destruct s as [k V T q0 f]. cbn [aa_V aa_T] in *.
      destruct (lookup T q a) as [[|x]|] eqn:E; cbn [negb] in *.
      + congruence.
      + cbn [aa_step]. rewrite E. cbn. split; [|reflexivity]. destruct g; exact RR.
      + assert (M : mem q V = true) by (apply mem_spec; exact Iq).
        destruct (dget (au_adj (ia_base g)) q) as [d|] eqn:G.
        2:{ exfalso. apply dget_None in G. apply G. destruct R as (_ & -> & _). exact Iq. }
        cbn [aa_step] in R', O |- *. rewrite E, M in *. cbn [fst snd aout_edge] in R', O.
        assert (Irk := Ir). cbn in Irk. rewrite <- K in Irk. apply key_dget in Irk. destruct Irk as (rin & Er). rewrite Er.
        cbn. split; [|reflexivity]. split; [exact R'|]. cbn.
        assert (DK : drop_key q a T = T).
        { apply filter_id. intros e I. destruct (same_key_spec q a e) as [[X Y]|]; [|reflexivity].
          exfalso. unfold lookup in E. destruct (find (same_key q a) T) eqn:FF; [discriminate|].
          apply (find_none _ _ FF) in I. destruct (same_key_spec q a e); [discriminate|tauto]. }
        destruct (proj2 W _ _ Er) as [Nr Ds].
        split; [rewrite dkeys_dset_old by (eapply dget_Some_key; exact Er); exact K|]. split; [|split].
        * apply iwf_dset; [exact W|]. split; [apply NoDup_dset; exact Nr|]. intros q' s'. rewrite dget_dset.
          destruct (eqb q' q); [|apply Ds]. intros [= <-]. destruct (dget rin q) as [s0|] eqn:G0.
          -- split; [apply NoDup_sadd; apply (Ds _ _ G0)|]. intros X.
             assert (Z : In a (sadd a s0)) by (apply In_sadd; auto). rewrite X in Z. destruct Z.
          -- split; [constructor; [intros []|constructor]|discriminate].
        * intros q' r' a'. rewrite lab_dset, in_app_iff, DK. rewrite <- (L q' r' a'). cbn.
          destruct (eqb_spec r' r) as [->|Nr'].
          -- rewrite dget_dset. destruct (eqb_spec q' q) as [->|Nq].
             ++ unfold lab. rewrite Er. destruct (dget rin q) as [s0|].
                ** rewrite In_sadd. intuition congruence.
                ** cbn. intuition congruence.
             ++ unfold lab. rewrite Er. intuition congruence.
          -- intuition congruence.
        * intros e I. rewrite DK in I. apply in_app_iff in I. destruct I as [I|[<-|[]]]; [apply C; exact I|]. cbn. tauto.
    - unfold IA_remove_edge. destruct (A_step _ _ (ARemoveEdge e) R) as [R' O].
      destruct s as [k V T q0 f]. cbn [aa_V aa_T] in *. cbn [A_call aa_step] in *.
      destruct (remove_edge_spec (ia_base g) e) as (m & E1 & Wm & Km & Tm); [apply R|].
      rewrite E1 in *. cbn [fst snd] in R'. destruct e as [q r a]. cbn [source target distinguisher] in *.
      assert (EX : existsb (fun x : edge A => (source x =? q) && (target x =? r)) T = true <->
        exists d s, dget (ia_in g) r = Some d /\ dget d q = Some s).
      { rewrite (lab_nonempty _ _ _ W), existsb_exists. split.
        - intros ([q' r' a'] & I & B). cbn in B. apply andb_true_iff in B. destruct B as [B1 B2].
          apply Nat.eqb_eq in B1, B2. subst. exists a'. apply L. exact I.
        - intros (a' & I). apply L in I. exists (Edge q r a'). split; [exact I|]. cbn. rewrite !Nat.eqb_refl. reflexivity. }
      assert (Lk : In (Edge q r a) T \/ (drop_key q a T = T /\ forall r', ~ In (Edge q r' a) T)).
      { cbn [ia_disciplined aa_T source distinguisher] in Hd. destruct Hd as [I|I]; [left; exact I|right].
        assert (Z : forall r', ~ In (Edge q r' a) T).
        { intros r' J. unfold lookup in I. destruct (find (same_key q a) T) eqn:FF; [discriminate|].
          apply (find_none _ _ FF) in J. destruct (same_key_spec q a (Edge q r' a)); [discriminate|]. cbn in *. tauto. }
        split; [|exact Z]. apply filter_id. intros [q' r' a'] J. destruct (same_key_spec q a (Edge q' r' a')) as [[X Y]|]; [|reflexivity].
        cbn in X, Y. subst. exfalso. eapply Z. exact J. }
      assert (CC : forall x, In x (drop_key q a T) -> In (source x) V /\ In (target x) V).
      { intros x I. apply In_drop_key in I. apply C. tauto. }
      assert (same_in : drop_key q a T = T -> iarep (mkIAut (g_with (ia_base g) m) (ia_in g)) (AA k V (drop_key q a T) q0 f)).
      { intros Z. unfold iarep. cbn [ia_base ia_in aa_V aa_T]. rewrite Z in *. tauto. }
      destruct (existsb (fun x : edge A => (source x =? q) && (target x =? r)) T) eqn:B.
      + destruct (proj1 EX eq_refl) as (d & s & Ed & Es). rewrite Ed, Es. cbn [fst snd].
        assert (Ls : lab (ia_in g) r q = s) by (unfold lab; rewrite Ed, Es; reflexivity).
        destruct (proj2 W _ _ Ed) as [Nd Ds]. destruct (Ds _ _ Es) as [Nds NEs].
        destruct Lk as [I|[Z NZ]].
        * assert (Ia : In a s) by (rewrite <- Ls; apply L; exact I).
          assert (Ma : mem a s = true) by (apply mem_spec; exact Ia). rewrite Ma. cbn. split; [|reflexivity].
          unfold iarep. cbn [ia_base ia_in aa_V aa_T]. split; [exact R'|].
          set (d' := match srem a s with [] => ddel d q | _ => dset d q (srem a s) end).
          assert (Nd' : NoDup (dkeys d')).
          { unfold d'. destruct (srem a s); [apply NoDup_ddel|apply NoDup_dset]; exact Nd. }
          assert (Gd' : forall q', match dget d' q' with None => [] | Some s => s end =
            if eqb q' q then srem a s else match dget d q' with None => [] | Some s => s end).
          { intros q'. unfold d'. destruct (srem a s).
            - rewrite dget_ddel by exact Nd. destruct (eqb q' q); reflexivity.
            - rewrite dget_dset. destruct (eqb q' q); reflexivity. }
          split; [rewrite dkeys_dset_old by (eapply dget_Some_key; exact Ed); exact K|]. split; [|split].
          -- apply iwf_dset; [exact W|]. split; [exact Nd'|]. intros q' s'. unfold d'.
             destruct (srem a s) as [|x l] eqn:Es'.
             ++ rewrite dget_ddel by exact Nd. destruct (eqb q' q); [discriminate|apply Ds].
             ++ rewrite dget_dset. destruct (eqb q' q); [|apply Ds]. intros [= <-]. rewrite <- Es'.
                split; [apply NoDup_srem; exact Nds|]. rewrite Es'. discriminate.
          -- intros q' r' a'. rewrite lab_dset, In_drop_key. cbn. rewrite <- (L q' r' a').
             destruct (eqb_spec r' r) as [->|Nr].
             ++ rewrite Gd'. destruct (eqb_spec q' q) as [->|Nq].
                ** rewrite In_srem, Ls. intuition congruence.
                ** unfold lab. rewrite Ed. intuition congruence.
             ++ split; [|tauto]. intros J. split; [exact J|]. intros [-> ->]. apply L in J.
                apply Nr. pose proof (keys_same_key _ _ (proj1 (proj2 (proj2 (proj2 R)))) _ _ J I eq_refl eq_refl) as X. congruence.
          -- exact CC.
        * assert (Ma : mem a s = false).
          { apply mem_false. rewrite <- Ls. intros J. apply L in J. eapply NZ. exact J. }
          rewrite Ma. cbn. split; [apply same_in; exact Z|reflexivity].
      + assert (NN : drop_key q a T = T).
        { destruct Lk as [I|[Z _]]; [|exact Z]. exfalso. apply not_true_iff_false in B. apply B.
          apply existsb_exists. exists (Edge q r a). split; [exact I|]. cbn. rewrite !Nat.eqb_refl. reflexivity. }
        destruct (dget (ia_in g) r) as [d|] eqn:Ed.
        * destruct (dget d q) as [s|] eqn:Es.
          -- assert (X : false = true) by (apply EX; eauto). discriminate X.
          -- cbn. split; [apply same_in; exact NN|reflexivity].
        * cbn. split; [apply same_in; exact NN|reflexivity].
    - destruct (IA_remove_vertex_spec g s u RR) as (g' & -> & R'). destruct s as [k V T q0 f].
      cbn [aa_V aa_T aa_next aa_q0 aa_final aa_step] in *.
      destruct (mem_reflect u V) as [I|NI]; cbn; (split; [|reflexivity]); [exact R'|].
      assert (E1 : filter (fun v => negb (v =? u)) V = V).
      { apply filter_id. intros v I. destruct (Nat.eqb_spec v u); [congruence|reflexivity]. }
      assert (E2 : drop_incident u T = T).
      { apply filter_id. intros e I. apply C in I.
        destruct (Nat.eqb_spec (source e) u) as [Z|], (Nat.eqb_spec (target e) u) as [Z'|]; try reflexivity;
          exfalso; apply NI; try rewrite <- Z; try rewrite <- Z'; tauto. }
      rewrite E1, E2 in R'. exact R'.
    - destruct (A_step _ _ (ASetInitial q b) R) as [R' O]. destruct s as [k V T q0 f]. cbn in *. split; [|reflexivity].
      unfold iarep. cbn. tauto.
    - destruct (A_step _ _ (ASetFinal q b) R) as [R' O]. destruct s as [k V T q0 f]. cbn in *. split; [|reflexivity].
      unfold iarep. cbn. tauto.
    - unfold IA_clear, IA_vertices. cbn [ia_base]. destruct s as [k V T q0 f].
      set (g0 := mkIAut (mkAut 0 (au_adj (ia_base g)) (au_q0 (ia_base g)) (au_final (ia_base g))) (ia_in g)).
      assert (KV : A_vertices (mkAut 0 (au_adj (ia_base g)) (au_q0 (ia_base g)) (au_final (ia_base g))) = V).
      { apply R. }
      rewrite KV. clear KV.
      assert (V = [] \/ V <> []) as [VE|VN] by (destruct V; [left; reflexivity|right; discriminate]).
      + subst V. cbn. split; [|reflexivity].
        assert (T = []) as ->.
        { destruct T as [|e T]; [reflexivity|]. destruct (C e (or_introl eq_refl)) as [[] _]. }
        destruct R as (R1 & R2 & R3 & R4 & R5 & R6 & R7).
        refine (conj (conj eq_refl (conj R2 (conj R3 (conj R4 (conj R5 (conj R6 _)))))) (conj K (conj W (conj L C)))).
        intros v [].
      + (* replay with the original counter, which the removals do not read *)
        assert (Gen : forall L (g : iaut A) n, foreach IA_remove_vertex
            (mkIAut (mkAut n (au_adj (ia_base g)) (au_q0 (ia_base g)) (au_final (ia_base g))) (ia_in g)) L =
            let '(g', r) := foreach IA_remove_vertex g L in
            (mkIAut (mkAut n (au_adj (ia_base g')) (au_q0 (ia_base g')) (au_final (ia_base g'))) (ia_in g'), r)).
        { clear. induction L as [|u L IH]; intros g n; cbn; [reflexivity|].
          assert (E : IA_remove_vertex (mkIAut (mkAut n (au_adj (ia_base g)) (au_q0 (ia_base g)) (au_final (ia_base g))) (ia_in g)) u
            = let '(g', r) := IA_remove_vertex g u in
            (mkIAut (mkAut n (au_adj (ia_base g')) (au_q0 (ia_base g')) (au_final (ia_base g'))) (ia_in g'), r)).
          { unfold IA_remove_vertex. cbn [ia_base ia_in au_adj au_q0 au_final au_last].
            unfold IA_in_edges. cbn [ia_in].
            destruct (dmem (ia_in g) u).
            - match goal with |- context [foreach ?f (au_adj (ia_base g)) ?l] =>
                destruct (foreach f (au_adj (ia_base g)) l) as [m [[]|ex]] end; cbn; [|reflexivity].
              destruct (dmem m u); cbn; [|reflexivity].
              unfold A_out_edges. cbn. match goal with |- context [foreach ?f ?x ?l] =>
                destruct (foreach f x l) as [m2 [[]|ex]] end; reflexivity.
            - destruct g as [b i]. cbn. destruct (dmem (au_adj b) u); cbn; [|reflexivity].
              unfold A_out_edges. cbn. match goal with |- context [foreach ?f ?x ?l] =>
                destruct (foreach f x l) as [m2 [[]|ex]] end; reflexivity. }
          rewrite E. destruct (IA_remove_vertex g u) as [g1 [[]|ex]]; [apply IH|reflexivity]. }
        unfold g0. rewrite Gen. destruct (IA_clear_aux V g _ RR) as (g' & s' & -> & R' & V' & N' & Q' & F').
        cbn in V', Q', F'. cbn. split; [|reflexivity].
        assert (VE : aa_V s' = []).
        { rewrite V'. assert (G : forall l, (forall x, In x l -> In x V) -> filter (fun v => negb (mem v V)) l = []).
          { induction l as [|x l IH]; cbn; intros Hl; [reflexivity|].
            destruct (mem_reflect x V) as [I|NI]; cbn.
            - apply IH. intros y Iy. apply Hl. right. exact Iy.
            - exfalso. apply NI, Hl. left. reflexivity. }
          apply G. tauto. }
        clear V'. destruct s' as [k' V0 T' q0' f']. cbn in *. subst V0 q0' f'.
        destruct R' as (Ra & Kr & Wr & Lr & Cr). cbn in *.
        assert (T' = []) as ->.
        { destruct T' as [|e T']; [reflexivity|]. destruct (Cr e (or_introl eq_refl)) as [[] _]. }
        destruct Ra as (R1 & R2 & R3 & R4 & R5 & R6 & R7).
        refine (conj (conj eq_refl (conj R2 (conj R3 (conj R4 (conj R5 (conj R6 _)))))) (conj Kr (conj Wr (conj Lr Cr)))).
        intros v [].
  Qed.

  Lemma iarep_init_aux n : forall g k, iarep g (AA k (seq 0 k) [] (Some 0) (fun _ => false)) ->
    iarep (IA_add_vertices n g) (AA (n + k) (seq 0 (n + k)) [] (Some 0) (fun _ => false)).
  Proof.
    induction n as [|n IH]; intros g k R; [exact R|]. replace (S n + k) with (n + S k) by lia. cbn [IA_add_vertices].
    apply IH. destruct (IA_step _ _ AAddVertex R I) as [R' _]. cbn [ia_step aa_step fst] in R'.
    change (seq 0 k ++ [k]) with (seq 0 k ++ [0 + k]) in R'. rewrite <- (seq_S k 0) in R'. exact R'.
  Qed.

  Lemma iarep_init n : iarep (IA_init n) (aa_init n).
  Proof.
    unfold IA_init, aa_init. rewrite <- (Nat.add_0_r n) at 2 3. apply iarep_init_aux.
    unfold iarep. split; [apply (arep_init 0)|]. cbn. repeat split; try constructor; try discriminate; try tauto.
    all: intros []; discriminate.
  Qed.

  Lemma iarep_runs ops : forall g s, iarep g s -> disciplined s ops ->
    iarep (fst (runs IA_call g ops)) (fst (runs ia_step s ops)) /\ snd (runs IA_call g ops) = snd (runs ia_step s ops).
  Proof.
    induction ops as [|op ops IH]; intros g s R D; cbn; [tauto|]. destruct D as [D1 D2].
    destruct (IA_step g s op R D1) as [R1 O1].
    destruct (IA_call g op) as [g1 o], (ia_step s op) as [s1 o']. cbn in *. subst o'.
    destruct (IH _ _ R1 D2) as [R2 O2].
    destruct (runs IA_call g1 ops) as [g2 os], (runs ia_step s1 ops) as [s2 os']. cbn in *. subst. tauto.
  Qed.
End IA.
