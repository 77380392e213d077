(** Nfa: refinement by a set of transitions, epsilon-closure, language. *)
From Verif Require Import Base BaseProofs Graph GraphProofs Automaton AutomatonProofs Nfa NfaSpec.
#[local] Arguments dkeys : simpl never.

Section P.
  Context {A : Type} {EA : EqDec A}.
  Notation nedge := (edge (A * list nat)).

  Lemma ntrans_edge g q a r : ntrans g q a r -> exists n, In (Edge q r (a, n)) (N_edges g).
  Proof.
    unfold ntrans, N_get, N_edges. destruct (dget (nf_adj g) q) as [arn|] eqn:E1; [|intros []].
    destruct (dget arn a) as [rn|] eqn:E2; [|intros []]. intros I. apply key_dget in I. destruct I as (n & E3). exists n.
    apply in_flat_map. exists (q, arn). split; [apply dget_In; exact E1|]. apply in_flat_map. exists (a, rn).
    split; [apply dget_In; exact E2|]. apply in_map_iff. exists (r, n). split; [reflexivity|]. apply dget_In. exact E3.
  Qed.

  Lemma In_one_step g qs a r : In r (N_delta_one_step g qs a) <-> exists q, In q qs /\ ntrans g q a r.
  Proof. unfold N_delta_one_step. rewrite In_sof, in_flat_map. reflexivity. Qed.

  (** ** epsilon-closure *)
  Section Eps.
    Variable g : nfa A.
    Notation T := (ntrans g).
    Notation eps := (nf_eps g).
    Definition ntargets : list nat := map target (N_edges g).
    Definition mu (ret : list nat) : nat := length (filter (fun x => negb (mem x ret)) ntargets).

    Lemma mu_le ret ret' : (forall x, In x ret -> In x ret') -> mu ret' <= mu ret.
    Proof.
      intros HI. unfold mu. induction ntargets as [|x l IH]; cbn; [lia|].
      destruct (mem_reflect x ret), (mem_reflect x ret'); cbn; try lia. exfalso. auto.
    Qed.
    Lemma mu_lt ret ret' x : (forall x, In x ret -> In x ret') -> In x ntargets -> In x ret' -> ~ In x ret -> mu ret' < mu ret.
    Proof.
      intros HI. unfold mu. induction ntargets as [|y l IH]; cbn; [intros []|]. intros [->|Ix] Ir Nr.
      - destruct (mem_reflect x ret) as [|]; [contradiction|]. destruct (mem_reflect x ret') as [|]; [|contradiction]. cbn.
        clear IH. assert (length (filter (fun x => negb (mem x ret')) l) <= length (filter (fun x => negb (mem x ret)) l)); [|lia].
        induction l as [|z l IHl]; cbn; [lia|].
        destruct (mem_reflect z ret), (mem_reflect z ret'); cbn; try lia. exfalso. auto.
      - specialize (IH Ix Ir Nr). destruct (mem_reflect y ret), (mem_reflect y ret'); cbn; try lia. exfalso. auto.
    Qed.
    Lemma mu_bound ret : mu ret <= N_num_edges g.
    Proof.
      unfold mu, N_num_edges. rewrite <- (map_length target). fold ntargets. induction ntargets as [|x l IH]; cbn; [lia|].
      destruct (negb (mem x ret)); cbn; lia.
    Qed.
    Lemma T_target q a r : T q a r -> In r ntargets.
    Proof. intros X. apply ntrans_edge in X. destruct X as (n & X). apply (in_map target) in X. exact X. Qed.

    Lemma eps_star_snoc q r t : eps_star T eps q r -> T r eps t -> eps_star T eps q t.
    Proof. induction 1 as [|q q' r' X Y IH]; intros Z; econstructor; eauto. constructor. Qed.
    Lemma eps_star_trans q r t : eps_star T eps q r -> eps_star T eps r t -> eps_star T eps q t.
    Proof. induction 1 as [|q q' r' X Y IH]; intros Z; [exact Z|]. econstructor; eauto. Qed.

    Lemma eps_loop_spec S0 : forall fuel ret new,
      (forall x, In x new -> In x ntargets /\ ~ In x ret) -> mu ret < fuel ->
      (forall x, In x ret \/ In x new -> exists q, In q S0 /\ eps_star T eps q x) ->
      (forall x, In x S0 -> In x ret \/ In x new) ->
      (forall x y, In x ret -> T x eps y -> In y ret \/ In y new) ->
      exists s, eps_loop fuel g ret new = Some s /\ forall t, In t s <-> exists q, In q S0 /\ eps_star T eps q t.
    Proof.
      induction fuel as [|fuel IH]; intros ret new HN L HS H0 HC; [lia|]. cbn [eps_loop].
      destruct new as [|x0 new0] eqn:EN.
      - exists ret. split; [reflexivity|]. intros t. split; [intros I; apply HS; auto|].
        intros (q & Iq & St). destruct (H0 q Iq) as [Ir|[]]. clear Iq. induction St as [|q r t X Y IH']; [exact Ir|].
        destruct (HC q r Ir X) as [Z|[]]. apply IH'. exact Z.
      - rewrite <- EN in *. set (ret' := sunion ret new).
        assert (IR : forall x, In x ret' <-> In x ret \/ In x new) by (intros x; apply In_sunion).
        apply IH.
        + intros x Ix. apply In_sdiff in Ix. destruct Ix as [Ix Nx]. split; [|exact Nx].
          apply In_one_step in Ix. destruct Ix as (q & _ & X). eapply T_target. exact X.
        + assert (I0 : In x0 new) by (rewrite EN; left; reflexivity). destruct (HN x0 I0) as [It Nr].
          assert (mu ret' < mu ret); [|lia]. apply (mu_lt _ _ x0); [intros x X; apply IR; auto|exact It|apply IR; auto|exact Nr].
        + intros x [Ix|Ix]; [apply HS; apply IR; exact Ix|]. apply In_sdiff in Ix. destruct Ix as [Ix _].
          apply In_one_step in Ix. destruct Ix as (q & Iq & X). destruct (HS q (or_intror Iq)) as (q0 & I0 & St).
          exists q0. split; [exact I0|]. eapply eps_star_snoc; eassumption.
        + intros x Ix. left. apply IR. apply H0. exact Ix.
        + intros x y Ix X. destruct (in_dec' y ret') as [I|N]; [auto|]. right. apply In_sdiff. split; [|exact N].
          apply IR in Ix. destruct Ix as [Ix|Ix].
          * exfalso. apply N. apply IR. eapply HC; eassumption.
          * apply In_one_step. exists x. auto.
    Qed.

    Lemma delta_epsilon_spec qs : exists s, N_delta_epsilon g qs = Some s /\
      forall t, In t s <-> exists q, In q qs /\ eps_star T eps q t.
    Proof.
      unfold N_delta_epsilon, eps_fuel. replace (N_num_edges g + 2) with (S (S (N_num_edges g))) by lia.
      remember (S (N_num_edges g)) as f eqn:Ef. cbn [eps_loop]. destruct qs as [|x0 qs0] eqn:EQ.
      - exists []. split; [reflexivity|]. intros t. split; [intros []|]. intros (q & [] & _).
      - rewrite <- EQ. set (qs1 := sunion [] qs).
        assert (IR : forall x, In x qs1 <-> In x qs) by (intros x; unfold qs1; rewrite In_sunion; cbn; tauto).
        apply (eps_loop_spec qs).
        + intros x Ix. apply In_sdiff in Ix. destruct Ix as [Ix Nx]. split; [|exact Nx].
          apply In_one_step in Ix. destruct Ix as (q & _ & X). eapply T_target. exact X.
        + pose proof (mu_bound qs1). lia.
        + intros x [Ix|Ix]; [apply IR in Ix; exists x; split; [exact Ix|constructor]|].
          apply In_sdiff in Ix. destruct Ix as [Ix _]. apply In_one_step in Ix. destruct Ix as (q & Iq & X).
          exists q. split; [exact Iq|]. econstructor; [exact X|constructor].
        + intros x Ix. left. apply IR. exact Ix.
        + intros x y Ix X. destruct (in_dec' y qs1) as [I|N]; [auto|]. right. apply In_sdiff. split; [|exact N].
          apply In_one_step. exists x. split; [apply IR; exact Ix|exact X].
    Qed.

    (** [x -a-> y] with epsilon moves before and after *)
    Definition wide (q : nat) (a : A) (t : nat) : Prop := exists p r, eps_star T eps q p /\ T p a r /\ eps_star T eps r t.

    Lemma delta_spec q a : exists s, N_delta g q a = Some s /\ forall t, In t s <-> wide q a t.
    Proof.
      unfold N_delta. destruct (delta_epsilon_spec [q]) as (s1 & -> & H1). cbn [obind].
      destruct (delta_epsilon_spec (N_delta_one_step g s1 a)) as (s & -> & H). exists s. split; [reflexivity|].
      intros t. rewrite H. split.
      - intros (r & Ir & St). apply In_one_step in Ir. destruct Ir as (p & Ip & X). apply H1 in Ip.
        destruct Ip as (q' & [<-|[]] & Y). exists p, r. auto.
      - intros (p & r & X & Y & Z). exists r. split; [|exact Z]. apply In_one_step. exists p. split; [|exact Y].
        apply H1. exists q. split; [left; reflexivity|exact X].
    Qed.

    Lemma omap_spec {X Y} (f : X -> option Y) (P : X -> Y -> Prop) l : (forall x, exists y, f x = Some y /\ P x y) ->
      exists ys, omap f l = Some ys /\ Forall2 P l ys.
    Proof.
      intros HF. induction l as [|x l IH]; cbn; [exists []; split; [reflexivity|constructor]|].
      destruct (HF x) as (y & -> & Py), IH as (ys & -> & Pys). exists (y :: ys). split; [reflexivity|]. constructor; assumption.
    Qed.
    Lemma Forall2_concat {X Y} (P : X -> Y -> Prop) l ys : Forall2 (fun x s => forall t, In t s <-> P x t) l ys ->
      forall t, In t (concat ys) <-> exists x, In x l /\ P x t.
    Proof.
      induction 1 as [|x s l ys H1 H2 IH]; cbn; intros t; [split; [intros []|intros (x & [] & _)]|].
      rewrite in_app_iff, H1, IH. split.
      - intros [X1|(y & I & X1)]; eauto.
      - intros (y & [<-|I] & X1); eauto.
    Qed.

    Lemma step_spec qs a : exists s, N_step g qs a = Some s /\ forall t, In t s <-> exists q, In q qs /\ wide q a t.
    Proof.
      unfold N_step. destruct (omap_spec (fun q => N_delta g q a) (fun q s => forall t, In t s <-> wide q a t) qs (fun q => delta_spec q a)) as (ys & -> & F).
      cbn. exists (sof (concat ys)). split; [reflexivity|]. intros t. rewrite In_sof. exact (Forall2_concat (fun q t => wide q a t) qs ys F t).
    Qed.

    Lemma sigma_spec q : exists s, N_sigma g q = Some s /\ forall a t, a <> eps -> wide q a t -> In a s.
    Proof.
      unfold N_sigma. destruct (delta_epsilon_spec [q]) as (s1 & -> & H1). cbn [obind]. eexists. split; [reflexivity|].
      intros a t N (p & r & X & Y & _). apply In_sof. apply in_flat_map. exists p.
      split; [apply H1; exists q; split; [left; reflexivity|exact X]|]. unfold ntrans, N_get in Y.
      destruct (dget (nf_adj g) p) as [arn|]; [|destruct Y]. destruct (dget arn a) as [rn|] eqn:E; [|destruct Y].
      apply filter_In. split; [eapply dget_Some_key; exact E|]. destruct (eqb_spec a eps); [contradiction|reflexivity].
    Qed.
    Lemma sigma_noeps q s a : N_sigma g q = Some s -> In a s -> a <> eps.
    Proof.
      unfold N_sigma. destruct (N_delta_epsilon g [q]); [|discriminate]. cbn. intros E. injection E as <-. rewrite In_sof, in_flat_map.
      intros (p & _ & I). destruct (dget (nf_adj g) p); [|destruct I]. apply filter_In in I. destruct I as [_ I].
      destruct (eqb_spec a eps); [discriminate|assumption].
    Qed.
    Lemma alphabet_spec q a r : a <> eps -> T q a r -> In a (N_alphabet g).
    Proof.
      intros N Y. unfold ntrans, N_get in Y. apply In_sof, in_flat_map.
      destruct (dget (nf_adj g) q) as [arn|] eqn:E1; [|destruct Y]. destruct (dget arn a) as [rn|] eqn:E; [|destruct Y].
      exists (q, arn). split; [apply dget_In; exact E1|]. apply filter_In. split; [eapply dget_Some_key; exact E|].
      destruct (eqb_spec a eps); [contradiction|reflexivity].
    Qed.
    Lemma alphabet_noeps a : In a (N_alphabet g) -> a <> eps.
    Proof.
      unfold N_alphabet. rewrite In_sof, in_flat_map. intros ([q arn] & _ & I). apply filter_In in I. destruct I as [_ I].
      destruct (eqb_spec a eps); [discriminate|assumption].
    Qed.

    (** ** runs *)
    Lemma nrun_eps_star q t : nrun T eps q [] t <-> eps_star T eps q t.
    Proof.
      split.
      - remember [] as w eqn:E. induction 1; [constructor|econstructor; eauto|discriminate].
      - induction 1; [constructor|econstructor; eauto].
    Qed.
    Lemma nrun_pre q r w t : eps_star T eps q r -> nrun T eps r w t -> nrun T eps q w t.
    Proof. induction 1; [auto|]. intros. eapply nrun_eps; eauto. Qed.
    Lemma nrun_cons_inv q a w t : nrun T eps q (a :: w) t ->
      exists p r, eps_star T eps q p /\ a <> eps /\ T p a r /\ nrun T eps r w t.
    Proof.
      remember (a :: w) as u eqn:E. induction 1 as [|q r t u X Y IH|q b r t u N X Y IH]; [discriminate| |].
      - destruct (IH E) as (p & r' & P1 & P2). exists p, r'. split; [|exact P2]. econstructor; eassumption.
      - injection E as -> ->. exists q, r. split; [constructor|]. auto.
    Qed.

    Definition closed (qs : list nat) : Prop := forall q r, In q qs -> eps_star T eps q r -> In r qs.
    Lemma closed_step qs a s : (forall t, In t s <-> exists q, In q qs /\ wide q a t) -> closed s.
    Proof.
      intros HS x y Ix St. apply HS in Ix. destruct Ix as (q & Iq & p & r & X & Y & Z). apply HS. exists q. split; [exact Iq|].
      exists p, r. split; [exact X|]. split; [exact Y|]. eapply eps_star_trans; eassumption.
    Qed.
    Lemma closed_eps qs s : (forall t, In t s <-> exists q, In q qs /\ eps_star T eps q t) -> closed s.
    Proof.
      intros HS x y Ix St. apply HS in Ix. destruct Ix as (q & Iq & X). apply HS. exists q. split; [exact Iq|].
      eapply eps_star_trans; eassumption.
    Qed.
    (** one symbol, from a closed set *)
    Lemma nrun_step qs a s w t : closed qs -> a <> eps -> (forall t, In t s <-> exists q, In q qs /\ wide q a t) ->
      (exists q, In q s /\ nrun T eps q w t) <-> exists q, In q qs /\ nrun T eps q (a :: w) t.
    Proof.
      intros C N HS. split.
      - intros (x & Ix & R). apply HS in Ix. destruct Ix as (q & Iq & p & r & X & Y & Z). exists q. split; [exact Iq|].
        eapply nrun_pre; [exact X|]. eapply nrun_cons; [exact N|exact Y|]. eapply nrun_pre; eassumption.
      - intros (q & Iq & R). apply nrun_cons_inv in R. destruct R as (p & r & X & _ & Y & Z). exists r. split; [|exact Z].
        apply HS. exists q. split; [exact Iq|]. exists p, r. split; [exact X|]. split; [exact Y|constructor].
    Qed.

    Lemma word_loop_spec w : forall qs, closed qs -> ~ In eps w ->
      exists s, word_loop g qs w = Some s /\ forall t, In t s <-> exists q, In q qs /\ nrun T eps q w t.
    Proof.
      induction w as [|a w IH]; intros qs C NE; cbn [word_loop].
      - exists qs. split; [reflexivity|]. intros t. split.
        + intros I. exists t. split; [exact I|constructor].
        + intros (q & I & R). apply nrun_eps_star in R. eapply C; eassumption.
      - destruct qs as [|x qs'] eqn:EQ.
        + exists []. split; [reflexivity|]. intros t. split; [intros []|intros (q & [] & _)].
        + rewrite <- EQ in *. destruct (step_spec qs a) as (s1 & -> & H1). cbn [obind].
          assert (Na : a <> eps) by (intros ->; apply NE; left; reflexivity).
          destruct (IH s1 (closed_step _ _ _ H1)) as (s & E & H2); [intros X; apply NE; right; exact X|].
          exists s. split; [exact E|]. intros t. rewrite H2. apply nrun_step; assumption.
    Qed.

    Lemma N_accepts_spec w : ~ In eps w -> exists b, N_accepts g w = Some b /\
      (b = true <-> exists q t, In q (nf_init g) /\ nrun T eps q w t /\ nf_final g t = true).
    Proof.
      intros NE. unfold N_accepts, N_delta_word. destruct (delta_epsilon_spec (nf_init g)) as (s0 & -> & H0). cbn [obind].
      destruct (word_loop_spec w s0 (closed_eps _ _ H0) NE) as (s & -> & H). cbn [obind].
      eexists. split; [reflexivity|]. rewrite existsb_exists. split.
      - intros (t & It & F). apply H in It. destruct It as (p & Ip & R). apply H0 in Ip. destruct Ip as (q & Iq & St).
        exists q, t. split; [exact Iq|]. split; [|exact F]. eapply nrun_pre; eassumption.
      - intros (q & t & Iq & R & F). exists t. split; [|exact F]. apply H. exists q. split; [|exact R].
        apply H0. exists q. split; [exact Iq|constructor].
    Qed.
  End Eps.

  (** ** Refinement of the editing calls *)
  Lemma In_N_edges g q r a n : nwf (nf_adj g) -> In (Edge q r (a, n)) (N_edges g) <-> dget (N_get g q a) r = Some n.
  Proof.
    intros [N1 N2]. unfold N_edges, N_get, out_of. rewrite in_flat_map. split.
    - intros ((q' & arn) & I & J). apply In_dget in I; [|exact N1]. apply in_flat_map in J. destruct J as ((a' & rn) & J & K).
      apply in_map_iff in K. destruct K as ((r' & n') & E & K). injection E as -> -> -> ->. rewrite I.
      destruct (N2 _ _ I) as [N3 N4]. apply In_dget in J; [|exact N3]. rewrite J. apply In_dget; [apply (N4 _ _ J)|exact K].
    - destruct (dget (nf_adj g) q) as [arn|] eqn:E1; [|discriminate]. destruct (dget arn a) as [rn|] eqn:E2; [|discriminate].
      intros E3. exists (q, arn). split; [apply dget_In; exact E1|]. apply in_flat_map. exists (a, rn). split; [apply dget_In; exact E2|].
      apply in_map_iff. exists (r, n). split; [reflexivity|]. apply dget_In. exact E3.
  Qed.
  Lemma In_N_edges_ntrans g q r a : nwf (nf_adj g) -> ntrans g q a r <-> exists n, In (Edge q r (a, n)) (N_edges g).
  Proof.
    intros W. split; [apply ntrans_edge|]. intros (n & I). apply In_N_edges in I; [|exact W]. unfold ntrans. eapply dget_Some_key. exact I.
  Qed.
  Lemma In_N_out_edges g q r a n x : nwf (nf_adj g) -> In (Edge q r (a, n)) (N_out_edges g x) <-> q = x /\ dget (N_get g q a) r = Some n.
  Proof.
    intros W. rewrite <- In_N_edges by exact W. unfold N_out_edges, N_edges. destruct W as [N1 N2]. split.
    - destruct (dget (nf_adj g) x) as [arn|] eqn:E; [|intros []]. intros I.
      assert (q = x).
      { unfold out_of in I. apply in_flat_map in I. destruct I as ((a' & rn) & _ & K). apply in_map_iff in K. destruct K as ((r' & n') & X & _). congruence. }
      subst x. split; [reflexivity|]. apply in_flat_map. exists (q, arn). split; [apply dget_In; exact E|exact I].
    - intros [-> I]. apply in_flat_map in I. destruct I as ((q' & arn) & I & J).
      assert (q' = x).
      { unfold out_of in J. apply in_flat_map in J. destruct J as ((a' & rn) & _ & K). apply in_map_iff in K. destruct K as ((r' & n') & X & _). congruence. }
      subst q'. apply In_dget in I; [|exact N1]. rewrite I. exact J.
  Qed.

  Lemma nwf_dset m q arn : nwf m -> NoDup (dkeys arn) -> (forall a rn, dget arn a = Some rn -> NoDup (dkeys rn)) -> nwf (dset m q arn).
  Proof.
    intros [N1 N2] Na Nr. split; [apply NoDup_dset; exact N1|]. intros q' arn'. rewrite dget_dset.
    destruct (eqb q' q); [intros E; injection E as <-; auto|apply N2].
  Qed.

  (** what an operation may change besides the transitions *)
  Definition same_but_adj (g g' : nfa A) : Prop :=
    nf_last g' = nf_last g /\ nf_init g' = nf_init g /\ nf_final g' = nf_final g /\ nf_eps g' = nf_eps g.

  Lemma add_edge_spec g q r a : nwf (nf_adj g) -> exists g' n, N_add_edge g q r a = (g', Ok (Edge q r (a, n), true)) /\
    nwf (nf_adj g') /\ same_but_adj g g' /\ N_vertices g' = sadd q (N_vertices g) /\
    forall q' a' r', ntrans g' q' a' r' <-> ntrans g q' a' r' \/ (q' = q /\ a' = a /\ r' = r).
  Proof.
    intros W. unfold N_add_edge. do 2 eexists. split; [reflexivity|].
    set (arn := match dget (nf_adj g) q with None => [] | Some arn => arn end).
    set (rn := match dget arn a with None => [] | Some rn => rn end).
    set (s := match dget rn r with None => [] | Some s => s end). cbn [nf_adj nf_set_adj].
    assert (Wa : NoDup (dkeys arn) /\ forall a rn, dget arn a = Some rn -> NoDup (dkeys rn)).
    { unfold arn. destruct (dget (nf_adj g) q) as [x|] eqn:E; [apply (proj2 W _ _ E)|]. split; [constructor|discriminate]. }
    destruct Wa as [Wa Wr].
    assert (Wn : NoDup (dkeys rn)).
    { unfold rn. destruct (dget arn a) as [x|] eqn:E; [apply (Wr _ _ E)|constructor]. }
    split; [apply nwf_dset; [exact W|apply NoDup_dset; exact Wa|]|].
    { intros a' rn'. rewrite dget_dset. destruct (eqb a' a); [|apply Wr]. intros E. injection E as <-. apply NoDup_dset. exact Wn. }
    split; [repeat split|]. split.
    - unfold N_vertices. cbn [nf_adj nf_set_adj]. unfold sadd. destruct (mem_reflect q (dkeys (nf_adj g))) as [I|I].
      + apply dkeys_dset_old. exact I.
      + apply dkeys_dset_new. exact I.
    - intros q' a' r'. unfold ntrans, N_get. cbn [nf_adj nf_set_adj]. rewrite dget_dset.
      destruct (eqb_spec q' q) as [->|N]; [|intuition congruence]. rewrite dget_dset.
      destruct (eqb_spec a' a) as [->|N].
      + rewrite In_dkeys_dset. fold arn. unfold rn, arn. destruct (dget (nf_adj g) q) as [x|]; cbn [dget]; [|cbn; intuition].
        destruct (dget x a); cbn; intuition.
      + unfold arn. destruct (dget (nf_adj g) q) as [x|]; cbn [dget]; intuition congruence.
  Qed.

  Lemma remove_edge_spec {D} g (e : edge (A * D)) : nwf (nf_adj g) -> exists g', N_remove_edge g e = (g', Ok tt) /\
    nwf (nf_adj g') /\ same_but_adj g g' /\ N_vertices g' = N_vertices g /\
    forall q a r, ntrans g' q a r <-> ntrans g q a r /\ ~ (q = source e /\ a = N_label e /\ r = target e).
  Proof.
    intros W. unfold N_remove_edge. change (fst (distinguisher e)) with (N_label e). set (q0 := source e). set (a0 := N_label e). set (r0 := target e).
    assert (NOP : ~ ntrans g q0 a0 r0 -> exists g', (g, @Ok unit tt) = (g', Ok tt) /\ nwf (nf_adj g') /\ same_but_adj g g' /\
      N_vertices g' = N_vertices g /\ forall q a r, ntrans g' q a r <-> ntrans g q a r /\ ~ (q = q0 /\ a = a0 /\ r = r0)).
    { intros N. exists g. split; [reflexivity|]. split; [exact W|]. split; [repeat split|]. split; [reflexivity|].
      intros q a r. split; [intros X; split; [exact X|]; intros (-> & -> & ->); contradiction|tauto]. }
    destruct (dget (nf_adj g) q0) as [arn|] eqn:E1; [|apply NOP; unfold ntrans, N_get; rewrite E1; intros []].
    destruct (dget arn a0) as [rn|] eqn:E2; [|apply NOP; unfold ntrans, N_get; rewrite E1, E2; intros []].
    destruct (dmem rn r0) eqn:E3; [|apply NOP; unfold ntrans, N_get; rewrite E1, E2; apply dmem_false; exact E3].
    destruct (proj2 W _ _ E1) as [Wa Wr]. pose proof (Wr _ _ E2) as Wn.
    eexists. split; [reflexivity|]. cbn [nf_adj nf_set_adj].
    split; [apply nwf_dset; [exact W|apply NoDup_dset; exact Wa|]|].
    { intros a' rn'. rewrite dget_dset. destruct (eqb a' a0); [|apply Wr]. intros E. injection E as <-. apply NoDup_ddel. exact Wn. }
    split; [repeat split|]. split; [unfold N_vertices; cbn [nf_adj nf_set_adj]; apply dkeys_dset_old; eapply dget_Some_key; exact E1|].
    intros q a r. unfold ntrans, N_get. cbn [nf_adj nf_set_adj]. rewrite dget_dset.
    destruct (eqb_spec q q0) as [->|N]; [|intuition congruence]. rewrite dget_dset, E1.
    destruct (eqb_spec a a0) as [->|N]; [|intuition congruence].
    rewrite E2, dkeys_ddel by exact Wn. rewrite In_srem. intuition congruence.
  Qed.

  Lemma foreach_remove (c : nedge -> bool) es : forall g, nwf (nf_adj g) ->
    exists g', foreach (fun g e => if c e then N_remove_edge g e else (g, Ok tt)) g es = (g', Ok tt) /\
      nwf (nf_adj g') /\ same_but_adj g g' /\ N_vertices g' = N_vertices g /\
      forall q a r, ntrans g' q a r <-> ntrans g q a r /\ ~ exists e, In e es /\ c e = true /\ q = source e /\ a = N_label e /\ r = target e.
  Proof.
    induction es as [|e es IH]; intros g W; cbn [foreach].
    - exists g. split; [reflexivity|]. split; [exact W|]. split; [repeat split|]. split; [reflexivity|].
      intros q a r. split; [intros X; split; [exact X|]; intros (e & [] & _)|tauto].
    - destruct (c e) eqn:Ce.
      + destruct (remove_edge_spec g e W) as (g1 & -> & W1 & S1 & V1 & T1).
        destruct (IH g1 W1) as (g' & E & W' & S' & V' & T'). exists g'. split; [exact E|]. split; [exact W'|].
        split; [unfold same_but_adj in *; intuition congruence|]. split; [congruence|].
        intros q a r. rewrite T', T1. split.
        * intros [[X Y] Z]. split; [exact X|]. intros (e' & [<-|I] & C' & K); [tauto|]. apply Z. exists e'. auto.
        * intros [X Y]. split; [split; [exact X|]|].
          -- intros K. apply Y. exists e. split; [left; reflexivity|]. auto.
          -- intros (e' & I & K). apply Y. exists e'. split; [right; exact I|exact K].
      + destruct (IH g W) as (g' & E & W' & S' & V' & T'). exists g'. split; [exact E|]. split; [exact W'|]. split; [exact S'|]. split; [exact V'|].
        intros q a r. rewrite T'. split; intros [X Y]; (split; [exact X|]).
        * intros (e' & [<-|I] & C' & K); [congruence|]. apply Y. exists e'. auto.
        * intros (e' & I & K). apply Y. exists e'. split; [right; exact I|exact K].
  Qed.

  Record nrep (g : nfa A) (s : anfa A) (eps : A) : Prop := {
    r_wf : nwf (nf_adj g);
    r_next : nf_last g = an_next s;
    r_V : N_vertices g = an_V s;
    r_T : forall q a r, ntrans g q a r <-> In (q, a, r) (an_T s);
    r_I : nf_init g = an_I s;
    r_F : forall q, nf_final g q = an_F s q;
    r_eps : nf_eps g = eps }.

  Lemma remove_vertex_spec g s eps u : nrep g s eps ->
    nrep (fst (N_remove_vertex g u)) (an_step s (FRemoveVertex u)) eps /\
    snd (N_remove_vertex g u) = if mem u (an_V s) then Ok tt else Raise KeyError.
  Proof.
    intros [W Nx V T I F E]. destruct s as [k V0 T0 I0 F0]. cbn [an_next an_V an_T an_I an_F an_step] in *. unfold N_remove_vertex.
    destruct (foreach_remove (fun e => u =? target e) (N_edges g) g W) as (g1 & E1 & W1 & S1 & V1 & T1). rewrite E1.
    destruct (foreach_remove (fun e => true) (N_out_edges g1 u) g1 W1) as (g2 & E2 & W2 & S2 & V2 & T2). change (foreach N_remove_edge g1 (N_out_edges g1 u) = (g2, Ok tt)) in E2. rewrite E2.
    assert (TT : forall q a r, ntrans g2 q a r <-> In (q, a, r) T0 /\ q <> u /\ r <> u).
    { intros q a r. rewrite T2, T1, T. split.
      - intros [[X Y] Z].
        assert (Nr : r <> u).
        { intros ->. apply Y. apply T in X. apply In_N_edges_ntrans in X; [|exact W]. destruct X as (n & X).
          exists (Edge q u (a, n)). split; [exact X|]. cbn. rewrite Nat.eqb_refl. auto. }
        split; [exact X|]. split; [|exact Nr]. intros ->.
        assert (X1 : ntrans g1 u a r) by (apply T1; split; [apply T; exact X|exact Y]).
        apply Z. unfold ntrans in X1. apply key_dget in X1. destruct X1 as (n & X1).
        exists (Edge u r (a, n)). split; [apply In_N_out_edges; auto|]. cbn. auto.
      - intros (X & Nq & Nr). split; [split; [exact X|]|].
        + intros (e & _ & C & _ & _ & ->). apply Nat.eqb_eq in C. congruence.
        + intros ([q' r' [a' n]] & Ie & _ & -> & _). apply In_N_out_edges in Ie; [|exact W1]. cbn in Nq. tauto. }
    assert (Vu : dmem (nf_adj g2) u = mem u V0).
    { destruct (mem_reflect u V0) as [X|X]; [apply dmem_spec|apply dmem_false]; change (dkeys (nf_adj g2)) with (N_vertices g2); rewrite V2, V1, V; exact X. }
    rewrite Vu. destruct S1 as (S11 & S12 & S13 & S14), S2 as (S21 & S22 & S23 & S24).
    destruct (mem_reflect u V0) as [Iu|Nu]; cbn [fst snd]; (split; [|reflexivity]); constructor; cbn [nf_adj nf_set_adj nf_last nf_init nf_final nf_eps an_next an_V an_T an_I an_F]; try congruence.
    - destruct W2 as [N1 N2]. split; [apply NoDup_ddel; exact N1|]. intros q arn. rewrite dget_ddel by exact N1. destruct (eqb q u); [discriminate|apply N2].
    - unfold N_vertices. cbn [nf_adj nf_set_adj]. rewrite dkeys_ddel by apply W2. change (dkeys (nf_adj g2)) with (N_vertices g2). congruence.
    - intros q a r. assert (X : ntrans (nf_set_adj g2 (ddel (nf_adj g2) u)) q a r <-> ntrans g2 q a r).
      { unfold ntrans, N_get. cbn [nf_adj nf_set_adj]. rewrite dget_ddel by apply W2. destruct (eqb_spec q u) as [->|]; [|reflexivity].
        split; [intros []|]. intros X. apply TT in X. tauto. }
      rewrite X, TT, filter_In. destruct (Nat.eqb_spec q u), (Nat.eqb_spec r u); cbn; intuition discriminate.
    - rewrite srem_notin by exact Nu. congruence.
    - intros q a r. rewrite TT, filter_In. destruct (Nat.eqb_spec q u), (Nat.eqb_spec r u); cbn; intuition discriminate.
  Qed.

  Lemma clear_spec g s eps : nrep g s eps ->
    nrep (fst (N_clear g)) (an_step s FClear) eps /\ snd (N_clear g) = Ok tt.
  Proof.
    intros R. unfold N_clear. set (g0 := mkNfa 0 _ _ _ _).
    assert (H : forall l g s, nrep g s eps -> an_next s = 0 -> an_V s = l -> (forall q a r, In (q, a, r) (an_T s) -> In q l) ->
      exists g', foreach N_remove_vertex g l = (g', Ok tt) /\ nrep g' (AN 0 [] [] (an_I s) (an_F s)) eps).
    { clear. induction l as [|u l IH]; intros g s R N V T; cbn [foreach].
      - exists g. split; [reflexivity|]. destruct s as [k V0 T0 I0 F0]. cbn in *. subst. destruct T0 as [|[[q a] r] T0]; [exact R|].
        destruct (T q a r (or_introl eq_refl)).
      - destruct (remove_vertex_spec g s eps u R) as [R1 E1].
        assert (ND : NoDup (u :: l)) by (rewrite <- V, <- (r_V _ _ _ R); apply (proj1 (r_wf _ _ _ R))). inversion ND as [|? ? NI ND']; subst.
        rewrite V in E1. rewrite (proj2 (mem_spec u (u :: l)) (or_introl eq_refl)) in E1.
        destruct (N_remove_vertex g u) as [g1 o]. cbn [fst snd] in *. subst o.
        destruct s as [k V0 T0 I0 F0]. cbn [an_step an_next an_V an_T an_I an_F] in *. subst k V0.
        apply (IH g1 _ R1); cbn [an_next an_V an_T]; [reflexivity| |].
        + cbn [srem filter]. unfold srem. cbn [filter]. rewrite eqb_refl. cbn [negb]. apply srem_notin, NI.
        + intros q a r J. apply filter_In in J. destruct J as [J K]. destruct (T q a r J) as [->|I]; [|exact I].
          rewrite Nat.eqb_refl in K. discriminate. }
    pose proof R as [W Nx V T I F E]. assert (R0 : nrep g0 (AN 0 (an_V s) (an_T s) (an_I s) (an_F s)) eps) by (constructor; cbn; auto).
    destruct (H (an_V s) g0 _ R0 eq_refl eq_refl) as (g' & E' & R').
    - cbn [an_T]. intros q a r J. apply T in J. rewrite <- V. unfold ntrans, N_get in J. unfold N_vertices.
      destruct (dget (nf_adj g) q) as [arn|] eqn:Eq; [|destruct J]. eapply dget_Some_key. exact Eq.
    - change (N_vertices g0) with (N_vertices g). rewrite V, E'. destruct s as [k V0 T0 I0 F0]. auto.
  Qed.

  Lemma N_call_rep g s eps op : nrep g s eps -> nrep (fst (N_call g op)) (an_step s op) eps.
  Proof.
    intros R. destruct op as [|q r a|q r a|u|q b|qs|q b|]; cbn [N_call].
    - destruct R as [W Nx V T I F E]. destruct s as [k V0 T0 I0 F0]. cbn in *. constructor; cbn; try congruence.
      + apply nwf_dset; [exact W|constructor|discriminate].
      + unfold N_vertices in *. cbn. rewrite Nx. unfold sadd. destruct (mem_reflect k V0) as [X|X]; rewrite <- V in X.
        * rewrite dkeys_dset_old by exact X. exact V.
        * rewrite dkeys_dset_new by exact X. congruence.
      + intros q a r. rewrite filter_In, <- T. unfold ntrans, N_get. cbn. rewrite dget_dset, Nx.
        destruct (eqb_spec q k) as [->|N].
        * rewrite Nat.eqb_refl. split; [intros []|intros [_ X]; discriminate].
        * destruct (Nat.eqb_spec q k); [contradiction|]. cbn. intuition.
    - destruct R as [W Nx V T I F E]. destruct (add_edge_spec g q r a W) as (g' & n & Eq & W' & (S1 & S2 & S3 & S4) & V' & T'). rewrite Eq. cbn [fst].
      destruct s as [k V0 T0 I0 F0]. cbn in *. constructor; cbn; try congruence.
      + intros q' a' r'. rewrite T', In_sadd, T. intuition congruence.

    - destruct R as [W Nx V T I F E]. destruct (remove_edge_spec g (Edge q r (a, tt)) W) as (g' & Eq & W' & (S1 & S2 & S3 & S4) & V' & T'). rewrite Eq. cbn [fst].
      destruct s as [k V0 T0 I0 F0]. cbn in *. constructor; cbn; try congruence.
      + intros q' a' r'. rewrite T', In_srem, T. unfold N_label. cbn. split; [intros [X Y]; (split; [|exact X]); intros Z; injection Z as -> -> ->; apply Y; auto|intros [Y X]; (split; [exact X|]); intros (-> & -> & ->); apply Y; reflexivity].

    - destruct (remove_vertex_spec g s eps u R) as [X _]. destruct (N_remove_vertex g u) as [g' [x|e]]; exact X.
    - destruct R as [W Nx V T I F E]. destruct s as [k V0 T0 I0 F0]. cbn in *. constructor; cbn; try congruence; try assumption. destruct b; congruence.
    - destruct R as [W Nx V T I F E]. destruct s as [k V0 T0 I0 F0]. cbn in *. constructor; cbn; try congruence; try assumption.
    - destruct R as [W Nx V T I F E]. destruct s as [k V0 T0 I0 F0]. cbn in *. constructor; cbn; try congruence; try assumption.
      intros x. destruct (x =? q); [reflexivity|apply F].
    - destruct (clear_spec g s eps R) as [X _]. destruct (N_clear g) as [g' [x|e]]; exact X.
  Qed.

  (** ** Results of the calls, copies of the transitions *)
  Lemma eqb_nat (x y : nat) : eqb x y = (x =? y).
  Proof. destruct (eqb_spec x y), (Nat.eqb_spec x y); congruence. Qed.
  Definition copied (g : nfa A) (c : nat -> A -> nat -> nat) : Prop := forall q a r,
    match dget (N_get g q a) r with None => c q a r = 0 | Some l => l = seq 1 (c q a r) /\ 0 < c q a r end.
  (** the removals only remove *)
  Definition shrink (g g' : nfa A) : Prop := forall q a r n, dget (N_get g' q a) r = Some n -> dget (N_get g q a) r = Some n.

  Lemma remove_edge_shrink {D} g (e : edge (A * D)) : nwf (nf_adj g) -> shrink g (fst (N_remove_edge g e)).
  Proof.
    intros W q a r n. unfold N_remove_edge. destruct (dget (nf_adj g) (source e)) as [arn|] eqn:E1; [|auto].
    destruct (dget arn (fst (distinguisher e))) as [rn|] eqn:E2; [|auto]. destruct (dmem rn (target e)) eqn:E3; [|auto]. cbn [fst].
    destruct (proj2 W _ _ E1) as [Wa Wr]. pose proof (Wr _ _ E2) as Wn.
    unfold N_get. cbn [nf_adj nf_set_adj]. rewrite dget_dset. destruct (eqb_spec q (source e)) as [->|N]; [|auto]. rewrite dget_dset, E1.
    destruct (eqb_spec a (fst (distinguisher e))) as [->|N]; [|auto]. rewrite E2, dget_ddel by exact Wn. destruct (eqb r (target e)); [discriminate|auto].
  Qed.
  Lemma foreach_shrink (c : nedge -> bool) es : forall g, nwf (nf_adj g) ->
    shrink g (fst (foreach (fun g e => if c e then N_remove_edge g e else (g, Ok tt)) g es)).
  Proof.
    induction es as [|e es IH]; intros g W; cbn [foreach]; [intros q a r n X; exact X|].
    destruct (c e) eqn:Ce; [|apply IH, W]. destruct (remove_edge_spec g e W) as (g1 & E1 & W1 & _).
    pose proof (remove_edge_shrink g e W) as S1. rewrite E1 in *. intros q a r n X. apply S1, (IH g1 W1 _ _ _ _ X).
  Qed.
  Lemma remove_vertex_shrink g u : nwf (nf_adj g) -> shrink g (fst (N_remove_vertex g u)).
  Proof.
    intros W. unfold N_remove_vertex.
    pose proof (foreach_shrink (fun e => u =? target e) (N_edges g) g W) as S1.
    destruct (foreach_remove (fun e => u =? target e) (N_edges g) g W) as (g1 & E1 & W1 & _). cbn beta in S1. rewrite E1 in *.
    pose proof (foreach_shrink (fun e => true) (N_out_edges g1 u) g1 W1) as S2. change (shrink g1 (fst (foreach N_remove_edge g1 (N_out_edges g1 u)))) in S2.
    destruct (foreach_remove (fun e => true) (N_out_edges g1 u) g1 W1) as (g2 & E2 & W2 & _). change (foreach N_remove_edge g1 (N_out_edges g1 u) = (g2, Ok tt)) in E2. rewrite E2 in *.
    assert (S : shrink g g2) by (intros q a r n X; apply S1, S2, X).
    destruct (dmem (nf_adj g2) u); [|exact S]. intros q a r n. cbn [fst]. unfold N_get at 1. cbn [nf_adj nf_set_adj]. rewrite dget_ddel by apply W2.
    destruct (eqb q u); [discriminate|]. apply S.
  Qed.
  Lemma ntrans_dget g q a r : ntrans g q a r <-> dget (N_get g q a) r <> None.
  Proof.
    unfold ntrans. destruct (dget (N_get g q a) r) as [n|] eqn:E.
    - split; [discriminate|]. intros _. eapply dget_Some_key. exact E.
    - split; [|congruence]. intros X. apply dget_None in E. contradiction.
  Qed.
  Lemma copied_shrink g g' c c' : shrink g g' -> copied g c -> (forall q a r, ntrans g' q a r -> c' q a r = c q a r) ->
    (forall q a r, ~ ntrans g' q a r -> c' q a r = 0) -> copied g' c'.
  Proof.
    intros S C H1 H2 q a r. specialize (C q a r). specialize (S q a r). specialize (H1 q a r). specialize (H2 q a r). rewrite ntrans_dget in *.
    destruct (dget (N_get g' q a) r) as [n|]; [|apply H2; congruence]. rewrite (S n eq_refl) in C. rewrite H1 by discriminate. exact C.
  Qed.
  Lemma copied_zero g c q a r : copied g c -> ~ ntrans g q a r -> c q a r = 0.
  Proof. intros C N. specialize (C q a r). rewrite ntrans_dget in N. destruct (dget (N_get g q a) r); [|exact C]. destruct N. discriminate. Qed.

  Lemma N_call_copied g s eps c op : nrep g s eps -> copied g c ->
    copied (fst (N_call g op)) (an_copies s c op) /\ snd (N_call g op) = an_result s c op.
  Proof.
    intros R C. pose proof (N_call_rep g s eps op R) as R'. destruct op as [|q r a|q r a|u|q b|qs|q b|]; cbn [N_call] in *.
    - split; [|cbn; rewrite (r_next _ _ _ R); reflexivity]. intros q a r. cbn [fst N_add_vertex]. unfold N_get. cbn [nf_adj]. rewrite dget_dset, (r_next _ _ _ R). cbn [an_copies]. rewrite <- eqb_nat.
      destruct (eqb q (an_next s)); [reflexivity|]. apply C.
    - cbn [N_add_edge fst snd source target distinguisher]. set (arn := match dget (nf_adj g) q with None => [] | Some arn => arn end).
      set (rn := match dget arn a with None => [] | Some rn => rn end). set (l := match dget rn r with None => [] | Some s => s end).
      assert (Ern : rn = N_get g q a). { unfold rn, arn, N_get. destruct (dget (nf_adj g) q) as [x|]; [|reflexivity]. reflexivity. }
      assert (El : l = seq 1 (c q a r)). { specialize (C q a r). unfold l. rewrite Ern. destruct (dget (N_get g q a) r) as [n|]; [apply C|rewrite C; reflexivity]. }
      split.
      + intros q' a' r'. unfold N_get. cbn [nf_adj nf_set_adj]. rewrite dget_dset. cbn [an_copies]. rewrite <- !eqb_nat. destruct (eqb_spec q' q) as [->|N]; [|cbn; apply C].
        rewrite dget_dset. destruct (eqb_spec a' a) as [->|Na].
        * rewrite dget_dset. destruct (eqb_spec r' r) as [->|Nr]; cbn [andb].
          -- rewrite El, seq_length. split; [|lia]. rewrite seq_S. unfold sadd. destruct (mem_reflect (c q a r + 1) (seq 1 (c q a r))) as [X|X]; [apply in_seq in X; lia|]. do 2 f_equal. lia.
          -- rewrite Ern. apply C.
        * rewrite andb_false_r. specialize (C q a' r'). unfold N_get in C. unfold arn. destruct (dget (nf_adj g) q) as [x|]; exact C.
      + cbn [an_result]. rewrite El, seq_length. f_equal. cbn. lia.
    - destruct (remove_edge_spec g (Edge q r (a, tt)) (r_wf _ _ _ R)) as (g' & Eq & W' & _ & V' & T'). pose proof (remove_edge_shrink g (Edge q r (a, tt)) (r_wf _ _ _ R)) as S. rewrite Eq in *. cbn [fst snd] in *.
      split; [|reflexivity]. apply (copied_shrink g g' c _ S C); intros q' a' r' X; cbn [an_copies]; rewrite <- !eqb_nat; rewrite T' in X; unfold N_label in X; cbn in X.
      + destruct X as [_ X]. destruct (eqb_spec q' q), (eqb_spec r' r), (eqb_spec a' a); cbn; tauto.
      + destruct (eqb_spec q' q) as [->|N1]; [|apply (copied_zero _ _ _ _ _ C); tauto]. destruct (eqb_spec r' r) as [->|N2]; [|apply (copied_zero _ _ _ _ _ C); tauto].
        destruct (eqb_spec a' a) as [->|N3]; [reflexivity|apply (copied_zero _ _ _ _ _ C); tauto].
    - destruct (remove_vertex_spec g s eps u R) as [RV EX]. pose proof (remove_vertex_shrink g u (r_wf _ _ _ R)) as S. destruct (N_remove_vertex g u) as [g' o]. cbn [fst snd] in *.
      assert (X : copied g' (an_copies s c (FRemoveVertex u))).
      { apply (copied_shrink g g' c _ S C); intros q' a' r' X; rewrite (r_T _ _ _ RV) in X; destruct s as [k V0 T0 I0 F0]; cbn [an_copies an_T an_step] in *; rewrite filter_In in X.
        - destruct ((q' =? u) || (r' =? u)); [cbn in X; intuition discriminate|reflexivity].
        - destruct ((q' =? u) || (r' =? u)); [reflexivity|]. apply (copied_zero _ _ _ _ _ C). rewrite (r_T _ _ _ R). cbn in *. tauto. }
      cbn [an_result]. destruct (mem u (an_V s)); subst o; (split; [exact X|reflexivity]).
    - split; [|reflexivity]. unfold N_set_initial. destruct b; exact C.
    - split; [exact C|reflexivity].
    - split; [exact C|reflexivity].
    - destruct (clear_spec g s eps R) as [X Y]. destruct (N_clear g) as [g' o]. cbn [fst snd] in *. subst o. split; [|reflexivity].
      intros q a r. cbn [an_copies fst]. destruct (dget (N_get g' q a) r) as [n|] eqn:En; [|reflexivity].
      assert (Z : ntrans g' q a r) by (apply ntrans_dget; rewrite En; discriminate). apply (r_T _ _ _ X) in Z. destruct s. destruct Z.
  Qed.

  Lemma runs_copied ops : forall g s eps c, nrep g s eps -> copied g c ->
    copied (fst (runs N_call g ops)) (snd (an_results s c ops)) /\ snd (runs N_call g ops) = fst (an_results s c ops).
  Proof.
    induction ops as [|op ops IH]; intros g s eps c R C; [split; [exact C|reflexivity]|]. cbn [runs an_results].
    destruct (N_call_copied g s eps c op R C) as [C' E]. pose proof (N_call_rep g s eps op R) as R'. destruct (N_call g op) as [g1 o]. cbn [fst snd] in *.
    destruct (IH g1 _ eps _ R' C') as [X Y]. destruct (runs N_call g1 ops) as [g2 os]. destruct (an_results (an_step s op) (an_copies s c op) ops) as [os' c']. cbn [fst snd] in *. subst. auto.
  Qed.

  Lemma N_init_rep n I eps : nrep (N_init n I eps) (an_init n I) eps.
  Proof.
    assert (H : forall k (g : nfa A), nf_adj g = map (fun i => (i, [])) (seq 0 (nf_last g)) ->
      let g' := N_add_vertices k g in nf_adj g' = map (fun i => (i, [])) (seq 0 (nf_last g + k)) /\ nf_last g' = nf_last g + k /\
        nf_init g' = nf_init g /\ nf_final g' = nf_final g /\ nf_eps g' = nf_eps g).
    { induction k as [|k IH]; intros g Hg g'; cbn in g'.
      - subst g'. rewrite Nat.add_0_r. auto.
      - unfold g'. edestruct IH as (A1 & A2 & A3 & A4 & A5); [|cbn [nf_last nf_init nf_final nf_eps N_add_vertex fst] in *; rewrite Nat.add_succ_r; split; [exact A1|]; auto].
        cbn [N_add_vertex fst nf_adj nf_last]. rewrite Hg, seq_S, map_app. cbn [plus map].
        generalize (nf_last g). intros m. assert (X : ~ In m (seq 0 m)) by (rewrite in_seq; lia). revert X. generalize (seq 0 m). intros l.
        induction l as [|x l IHl]; intros X; cbn; [reflexivity|]. destruct (eqb_spec m x) as [->|]; [exfalso; apply X; left; reflexivity|].
        f_equal. apply IHl. intros Y. apply X. right. exact Y. }
    unfold N_init, an_init. destruct (H n (mkNfa 0 [] (match I with [] => [0] | _ => I end) (fun _ => false) eps) eq_refl) as (A1 & A2 & A3 & A4 & A5).
    cbn [nf_last nf_init nf_final nf_eps] in *. set (g' := N_add_vertices _ _) in *. cbn [plus] in *.
    assert (K : dkeys (nf_adj g') = seq 0 n) by (rewrite A1; unfold dkeys; rewrite map_map; cbn; apply map_id).
    assert (D : forall q arn, dget (nf_adj g') q = Some arn -> arn = []).
    { intros q arn X. apply dget_In in X. rewrite A1 in X. apply in_map_iff in X. destruct X as (i & X & _). congruence. }
    constructor; cbn; try assumption.
    - split; [rewrite K; apply seq_NoDup|]. intros q arn X. apply D in X. subst arn. split; [constructor|discriminate].
    - intros q a r. unfold ntrans, N_get. destruct (dget (nf_adj g') q) as [arn|] eqn:X; [apply D in X; subst arn|]; cbn; tauto.
    - intros q. rewrite A4. reflexivity.
  Qed.
  Lemma copied_init n I eps : copied (N_init n I eps) (fun _ _ _ => 0).
  Proof.
    intros q a r. pose proof (r_T _ _ _ (N_init_rep n I eps) q a r) as X. rewrite ntrans_dget in X. cbn in X.
    destruct (dget (N_get (N_init n I eps) q a) r); [|reflexivity]. exfalso. apply (proj1 X). discriminate.
  Qed.

  Lemma N_runs_rep n I eps ops : nrep (fst (runs N_call (N_init n I eps) ops)) (fold_left an_step ops (an_init n I)) eps.
  Proof.
    pose proof (N_init_rep n I eps) as R. revert R. generalize (N_init n I eps) (an_init (A:=A) n I).
    induction ops as [|op ops IH]; intros g s R; cbn; [exact R|].
    pose proof (N_call_rep g s eps op R) as R1. destruct (N_call g op) as [g1 o1]. cbn in R1.
    specialize (IH g1 _ R1). destruct (runs N_call g1 ops). exact IH.
  Qed.

  (** runs only depend on the transition relation *)
  Lemma nrun_ext (T T' : nat -> A -> nat -> Prop) eps q w t : (forall q a r, T q a r -> T' q a r) -> nrun T eps q w t -> nrun T' eps q w t.
  Proof. intros HT. induction 1; [constructor|eapply nrun_eps; eauto|eapply nrun_cons; eauto]. Qed.
  Lemma eps_star_ext (T T' : nat -> A -> nat -> Prop) eps q t : (forall q a r, T q a r -> T' q a r) -> eps_star T eps q t -> eps_star T' eps q t.
  Proof. intros HT. induction 1; [constructor|econstructor; eauto]. Qed.
End P.
