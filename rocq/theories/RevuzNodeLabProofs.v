(** Lemmas on revuz_minimize with labels on the states of an IncidenceNodeAutomaton. The proofs follow RevuzNodeProofs.v and RevuzLabProofs.v. *)
From Coq Require Import ZArith.
From Verif Require Import Graph GraphProofs Automaton AutomatonSpec AutomatonProofs AutomatonProofs2 AutomatonProofs3 NodeAut Heap Revuz RevuzSpec RevuzProofs RevuzProofs2 RevuzProofs3 RevuzNode RevuzNodeProofs RevuzLab RevuzLabProofs RevuzNodeLab Base BaseProofs.

Section M.
  Context {A B C : Type} {EA : EqDec A} {EB : EqDec B} {EC : EqDec C}.
  Notation aaut := (aaut (option A)).
  Variable sym : nat -> option A.
  Variables (pv : option (nat -> B)) (pe : option (edge (option A) -> C)).
  (** the label of a transition only depends on its target *)
  Definition tgt : Prop := match pe with None => True | Some f => forall e e' : edge (option A), target e = target e' -> f e = f e' end.
  Definition vlab (q : nat) : option A + B := match pv with Some f => inr (f q) | None => inl (sym q) end.
  Notation pvl := (Some vlab).
  Lemma node_label_eq (g : naut A) s q : narep sym g s -> node_label pv g q = vlab q.
  Proof. intros R. unfold node_label, vlab. destruct pv; [reflexivity|]. rewrite (narep_sym sym g s q R). reflexivity. Qed.
  Lemma arc_label_eq (g : naut A) s e e' : tgt -> narep sym g s -> target e = target e' -> arc_label pv pe g e = arc_label pv pe g e'.
  Proof. intros TGT R E. unfold arc_label. unfold tgt in TGT. destruct pe as [f|]; [f_equal; apply TGT, E|]. rewrite E. reflexivity. Qed.

  (** the groups, with signatures of RevuzNode.v *)
  Definition nsig0 : @nsignature A := (true, None, []).
  Definition nplain (m : list (@nlsignature A B C * list nat)) : list (@nsignature A * list nat) := map (fun x => (nsig0, snd x)) m.
  Lemma nlmerge_groups_eq ord m : forall (g : naut A), foreach (nlmerge_group ord) g m = foreach (nmerge_group ord) g (nplain m).
  Proof.
    induction m as [|[k G] m IH]; intros g; cbn [foreach nplain map snd]; [reflexivity|].
    assert (E : nlmerge_group ord g (k, G) = nmerge_group ord g (nsig0, G)) by reflexivity. cbv beta delta [nlsignature] in *. rewrite E. destruct (nmerge_group ord g (nsig0, G)) as [g' [u|e]]; [apply IH|reflexivity].
  Qed.
  Lemma nplain_snd m : map snd (nplain m) = map snd m.
  Proof. unfold nplain. rewrite map_map. reflexivity. Qed.

  Variable ht : nat -> nat.
  Definition nlsig (g : naut A) (q : nat) : @nlsignature A B C :=
    (na_final g q, node_label pv g q, match NA_out_edges g q with Ok es => sof (map (fun e => (arc_label pv pe g e, target e)) es) | Raise _ => [] end).
  Lemma make_nlsig (g : naut A) s q : narep sym g s -> In q (aa_V s) -> make_nlsignature pv pe g q = Ok (nlsig g q).
  Proof. intros R I. destruct (In_obs_nout sym g s q R I) as (es & E & _). unfold make_nlsignature, nlsig. rewrite E. reflexivity. Qed.
  Lemma In_nlsig (g : naut A) s q l r : narep sym g s -> In q (aa_V s) -> In (l, r) (snd (nlsig g q)) <-> exists a, l = arc_label pv pe g (Edge q r a) /\ In (Edge q r a) (aa_T s).
  Proof.
    intros R Vq. unfold nlsig. cbn [snd]. destruct (In_obs_nout sym g s q R Vq) as (es & E & M). rewrite E, In_sof, in_map_iff. split.
    - intros ([p t b] & EE & I). cbn [target] in EE. injection EE as <- <-. apply M in I. cbn [source] in I. destruct I as [-> I]. eauto.
    - intros (a & -> & I). exists (Edge q r a). split; [reflexivity|]. apply M. auto.
  Qed.
  Lemma nlsig_fst (g : naut A) s q : narep sym g s -> fst (nlsig g q) = (aa_final s q, vlab q).
  Proof. intros R. assert (HF : forall q, na_final g q = aa_final s q) by apply R. unfold nlsig. cbn [fst]. rewrite HF, (node_label_eq g s _ R). reflexivity. Qed.
  Lemma nlsig_eqb_sound (g : naut A) s x y : narep sym g s -> In x (aa_V s) -> In y (aa_V s) -> nlsig_eqb (nlsig g x) (nlsig g y) = true -> lsigeq pvl s x y.
  Proof.
    intros R Vx Vy. unfold nlsig_eqb, lsigeq, sigeq. rewrite andb_true_iff, set_eqb_spec, !(nlsig_fst g s _ R). unfold state_label.
    intros [H1 H2]. apply (proj1 (eqb_eq _ _)) in H1. pose proof (f_equal fst H1) as H4. pose proof (f_equal snd H1) as H3. cbn [fst snd] in H3, H4. split; [congruence|]. split; [exact H4|].
    intros a r. split; intros I; pose proof (narep_label sym g s R _ _ _ I) as ->.
    - assert (J : In (arc_label pv pe g (Edge x r (sym r)), r) (snd (nlsig g x))) by (apply (In_nlsig g s); eauto). apply H2, (In_nlsig g s y _ _ R Vy) in J. destruct J as (a & _ & J). pose proof (narep_label sym g s R _ _ _ J) as ->. exact J.
    - assert (J : In (arc_label pv pe g (Edge y r (sym r)), r) (snd (nlsig g y))) by (apply (In_nlsig g s); eauto). apply H2, (In_nlsig g s x _ _ R Vx) in J. destruct J as (a & _ & J). pose proof (narep_label sym g s R _ _ _ J) as ->. exact J.
  Qed.
  Lemma nlsig_eqb_complete (g : naut A) s x y : tgt -> narep sym g s -> In x (aa_V s) -> In y (aa_V s) -> lsigeq pvl s x y -> nlsig_eqb (nlsig g x) (nlsig g y) = true.
  Proof.
    intros TGT R Vx Vy. unfold nlsig_eqb, lsigeq, sigeq. rewrite andb_true_iff, set_eqb_spec, !(nlsig_fst g s _ R). unfold state_label.
    intros (H1 & H2 & H3). split; [apply (proj2 (eqb_eq _ _)); congruence|]. intros [l r]. rewrite (In_nlsig g s x l r R Vx), (In_nlsig g s y l r R Vy).
    split; intros (a & -> & I); exists a; (split; [apply (arc_label_eq g s); [exact TGT|exact R|reflexivity]|apply H3, I]).
  Qed.
  Lemma nlsig_eqb_sym (x y : @nlsignature A B C) : nlsig_eqb x y = true -> nlsig_eqb y x = true.
  Proof. unfold nlsig_eqb. rewrite !andb_true_iff, !set_eqb_spec. intros [H1 H2]. split; [|intros a; symmetry; apply H2]. apply (proj1 (eqb_eq _ _)) in H1. rewrite H1. apply eqb_refl. Qed.
  Lemma nlsig_eqb_trans (x y z : @nlsignature A B C) : nlsig_eqb x y = true -> nlsig_eqb y z = true -> nlsig_eqb x z = true.
  Proof. unfold nlsig_eqb. rewrite !andb_true_iff, !set_eqb_spec. intros [H1 H2] [H3 H4]. split; [|intros a; rewrite H2; apply H4]. apply (proj1 (eqb_eq _ _)) in H1. rewrite H1. exact H3. Qed.

  Definition nlagg_ok (g : naut A) (l : list nat) (m : list (@nlsignature A B C * list nat)) : Prop :=
    (forall k G, In (k, G) m -> forall q, In q G -> nlsig_eqb (nlsig g q) k = true) /\
    ForallOrdPairs (fun a b => nlsig_eqb (fst b) (fst a) = false) m /\ Permutation (concat (map snd m)) l.
  Lemma nlagg_add_ok (g : naut A) m q : forall l, nlagg_ok g l m -> ~ In q l -> nlagg_ok g (q :: l) (nlagg_add m (nlsig g q) q) /\
    forall k, In k (map fst (nlagg_add m (nlsig g q) q)) -> In k (map fst m) \/ (k = nlsig g q).
  Proof.
    induction m as [|[k G] m IH]; intros l (H1 & H2 & H3) NI; cbn [nlagg_add].
    - cbn in H3. split; [|cbn; intros ? [<-|[]]; auto]. split; [|split].
      + intros k G [[= <- <-]|[]] x [<-|[]]. apply andb_true_iff. split; [apply eqb_refl|apply set_eqb_spec; tauto].
      + repeat constructor.
      + cbn. rewrite <- H3. reflexivity.
    - inversion H2 as [|? ? H4 H5]; subst. cbn [map snd concat] in H3. assert (NG : ~ In q G) by (intros I; apply NI; apply (Permutation_in _ H3), in_or_app; auto).
      destruct (nlsig_eqb (nlsig g q) k) eqn:E.
      + split; [|cbn; tauto]. split; [|split].
        * intros k' G' [[= <- <-]|I] x J; [|apply (H1 k' G' (or_intror I) x J)]. apply In_sadd in J. destruct J as [->|J]; [exact E|apply (H1 k G (or_introl eq_refl) x J)].
        * constructor; [|exact H5]. apply Forall_forall. intros b I. rewrite Forall_forall in H4. apply (H4 b I).
        * cbn [map snd concat]. unfold sadd. destruct (mem_reflect q G); [contradiction|]. rewrite <- H3. rewrite <- app_assoc. cbn. symmetry. apply Permutation_middle.
      + destruct (IH (concat (map snd m))) as [(K1 & K2 & K3) K4].
        * split; [intros k' G' I; apply (H1 k' G'); right; exact I|]. split; [exact H5|reflexivity].
        * intros I. apply NI, (Permutation_in _ H3), in_or_app. auto.
        * split; [split; [|split]|].
          -- intros k' G' [[= <- <-]|I]; [apply (H1 k G (or_introl eq_refl))|apply (K1 k' G' I)].
          -- constructor; [|exact K2]. apply Forall_forall. intros [k' G'] I. cbn. destruct (K4 k' (in_map fst _ _ I)) as [J| ->]; [|exact E]. apply in_map_iff in J. destruct J as ([k2 G2] & [= <-] & J). rewrite Forall_forall in H4. apply (H4 _ J).
          -- cbn [map snd concat]. rewrite K3, <- H3. symmetry. apply Permutation_middle.
          -- cbn [map]. intros k' [<-|I]; [left; left; reflexivity|]. destruct (K4 k' I); [left; right; assumption|auto].
  Qed.
  Lemma nlaggregates_ok (g : naut A) s l : narep sym g s -> NoDup l -> (forall v, In v l -> In v (aa_V s)) -> exists m, nlaggregates pv pe g l = (m, Ok tt) /\ nlagg_ok g (rev l) m.
  Proof.
    intros R N V. unfold nlaggregates.
    assert (G : forall l m acc, (forall v, In v l -> In v (aa_V s)) -> nlagg_ok g acc m -> NoDup (rev l ++ acc) ->
      exists m', foreach (fun m q => match make_nlsignature pv pe g q with Ok s => (nlagg_add m s q, Ok tt) | Raise x => (m, Raise x) end) m l = (m', Ok tt) /\ nlagg_ok g (rev l ++ acc) m').
    { clear l N V. induction l as [|q l IH]; intros m acc V H N; cbn [foreach rev app]; [exists m; auto|]. cbn [rev] in N. rewrite <- app_assoc in *. cbn [app] in *. rewrite (make_nlsig g s q R (V q (or_introl eq_refl))).
      destruct (IH (nlagg_add m (nlsig g q) q) (q :: acc)) as (m' & E & H'); [intros v J; apply V; right; exact J| |exact N|exists m'; auto].
      apply nlagg_add_ok; [exact H|]. apply NoDup_app_inv in N. destruct N as (_ & N & _). inversion N. assumption. }
    specialize (G l [] [] V). rewrite app_nil_r in G. apply G; [split; [intros ? ? []|split; [constructor|reflexivity]]|]. apply (Permutation_NoDup (Permutation_rev l)), N.
  Qed.


  Lemma nllevel_merge ord h s (g : naut A) l : valid_order ord -> (forall x y, In x (aa_V s) -> In y (aa_V s) -> vlab x = vlab y -> sym x = sym y) -> narep sym g s -> NoDup l -> (forall v, In v l <-> In v (aa_V s) /\ ht v = h) ->
    exists m g' s' phi, nlaggregates pv pe g l = (m, Ok tt) /\ foreach (nlmerge_group ord) g m = (g', Ok tt) /\ narep sym g' s' /\ quo ht h phi s s' /\ (forall v, state_label pvl (phi v) = state_label pvl v) /\
      (tgt -> forall x y, In x l -> In y l -> lsigeq pvl s x y -> phi x = phi y).
  Proof.
    intros OV RF R N H. assert (LV : forall v, In v l -> In v (aa_V s)) by (intros v I; apply H, I).
    destruct (nlaggregates_ok g s l R N LV) as (m & EM & A1 & A2 & A3). pose proof (Permutation_trans A3 (Permutation_sym (Permutation_rev l))) as A4. rewrite EM.
    assert (IN : forall k G x, In (k, G) m -> In x G -> In x l).
    { intros k G x I J. apply (Permutation_in _ A4), in_concat. exists G. split; [apply in_map_iff; exists (k, G); auto|exact J]. }
    assert (SG : forall k G x y, In (k, G) m -> In x G -> In y G -> lsigeq pvl s x y).
    { intros k G x y I J1 J2. apply (nlsig_eqb_sound g s x y R); [apply LV, (IN k G x I J1)|apply LV, (IN k G y I J2)|]. apply (nlsig_eqb_trans _ k); [apply (A1 k G I x J1)|apply nlsig_eqb_sym, (A1 k G I y J2)]. }
    assert (PL : forall k G, In (k, G) (nplain m) -> exists k', In (k', G) m).
    { intros k G I. apply in_map_iff in I. destruct I as ([k' G'] & [= _ <-] & I). eauto. }
    assert (LP : forall k G, In (k, G) m -> In (nsig0, G) (nplain m)) by (intros k G I; apply in_map_iff; exists (k, G); auto).
    destruct (nquo_groups sym ht ord h s (nplain m) OV (fun v => v) s g R (nquo_id sym ht h s)) as (g' & s' & phi & E & R' & [Q _] & OUT & P).
    - rewrite nplain_snd. apply (Permutation_NoDup (Permutation_sym A4)), N.
    - intros k G I. destruct (PL k G I) as [k' I']. split; [intros x J; apply H, (IN k' G x I' J)|]. intros x y J1 J2. destruct (SG k' G x y I' J1 J2) as [S1 S2]. split; [|exact S2]. apply RF; [apply LV, (IN k' G x I' J1)|apply LV, (IN k' G y I' J2)|]. unfold state_label in S1. congruence.
    - rewrite nplain_snd in OUT. exists m, g', s', phi. split; [reflexivity|]. split; [rewrite nlmerge_groups_eq; exact E|]. split; [exact R'|]. split; [exact Q|]. split.
      + intros v. destruct (in_dec Nat.eq_dec v (concat (map snd m))) as [J|J]; [|rewrite (OUT v J); reflexivity].
        apply in_concat in J. destruct J as (G & J & J'). apply in_map_iff in J. destruct J as ([k G'] & EG & J). cbn in EG. subst G'. destruct (P _ _ (LP k G J)) as [P1 _]. apply (SG k G _ _ J (P1 v J') J').
      + intros TGT x y I J SE. apply (nlsig_eqb_complete g s x y TGT R (LV x I) (LV y J)) in SE.
        apply (Permutation_in _ (Permutation_sym A4)), in_concat in I. apply (Permutation_in _ (Permutation_sym A4)), in_concat in J. destruct I as (G1 & I & I'), J as (G2 & J & J'). apply in_map_iff in I, J. destruct I as ([k1 G1'] & E1 & I), J as ([k2 G2'] & E2 & J). cbn in E1, E2. subst G1' G2'.
        assert (SK : nlsig_eqb k1 k2 = true /\ nlsig_eqb k2 k1 = true).
        { pose proof (A1 _ _ I _ I') as B1. pose proof (A1 _ _ J _ J') as B2. assert (B3 : nlsig_eqb k1 k2 = true) by (apply (nlsig_eqb_trans _ (nlsig g x)); [apply nlsig_eqb_sym, B1|apply (nlsig_eqb_trans _ (nlsig g y)); assumption]). split; [exact B3|apply nlsig_eqb_sym, B3]. }
        destruct (ForallOrdPairs_In A2 _ _ I J) as [EQ|[EQ|EQ]]; cbn in EQ; [|destruct SK; congruence|destruct SK; congruence]. injection EQ as <- <-. apply (proj2 (P _ _ (LP k1 G1 I)) x y I' J').
  Qed.

  (** ** The loop *)
  Record nlinv (s0 : aaut) (h : nat) (todo : list nat) (s : aaut) : Prop := {
    n_q0 : aa_q0 s = aa_q0 s0;
    n_final : aa_final s = aa_final s0;
    n_V : forall v, In v (aa_V s) -> In v (aa_V s0);
    n_same : forall v, In v (aa_V s) -> beh pvl s0 s v v;
    n_down : forall p r a, In (Edge p r a) (aa_T s) -> ht r < ht p;
    n_next : forall p n, In p (aa_V s) -> ht p = S n -> exists r a, In (Edge p r a) (aa_T s) /\ ht r = n;
    n_todo : NoDup todo /\ forall v, In v todo <-> In v (aa_V s) /\ ht v = h;
    n_uniq : tgt -> forall x y, In x (aa_V s) -> In y (aa_V s) -> ht x < h -> lsigeq pvl s x y -> x = y;
    n_removed : forall v, In v (aa_V s0) -> ~ In v (aa_V s) -> exists q, In q (aa_V s) /\ (q < v /\ ht q = ht v) /\ beh pvl s0 s0 q v }.
  Lemma nlinv_step ord s0 h todo l s (g : naut A) : valid_order ord -> (forall x y, In x (aa_V s0) -> In y (aa_V s0) -> vlab x = vlab y -> sym x = sym y) -> narep sym g s -> nlinv s0 h todo s -> Permutation l todo ->
    exists m g' s', nlaggregates pv pe g l = (m, Ok tt) /\ foreach (nlmerge_group ord) g m = (g', Ok tt) /\ narep sym g' s' /\
      nlinv s0 (S h) (sof (filter (fun p => ht p =? S h) (flat_map (fun q => map source (INA_in_edges g' q)) todo))) s'.
  Proof.
    intros OV RF R I PL. destruct (n_todo _ _ _ _ I) as [TN TI].
    destruct (nllevel_merge ord h s g l OV) as (m & g' & s' & phi & EM & E & R' & Q & QL & U); [intros x y Vx Vy; apply RF; apply (n_V _ _ _ _ I); assumption|exact R| | |].
    { apply (Permutation_NoDup (Permutation_sym PL)), TN. }
    { intros v. rewrite <- TI. split; apply Permutation_in; [exact PL|symmetry; exact PL]. }
    assert (QB : forall q, beh pvl s s' q (phi q)) by (intros q; apply (quo_beh pvl ht h phi s s' q Q QL)).
    exists m, g', s'. split; [exact EM|]. split; [exact E|]. split; [exact R'|].
    assert (VV : forall v, In v (aa_V s') -> In v (aa_V s) /\ phi v = v) by (intros v; apply (q_V _ _ _ _ _ Q)).
    assert (VP : forall v, In v (aa_V s) -> In (phi v) (aa_V s')) by (intros v J; apply (q_V _ _ _ _ _ Q); split; [apply (q_in _ _ _ _ _ Q), J|apply (q_idem _ _ _ _ _ Q)]).
    assert (BP : forall v, beh pvl s s (phi v) v).
    { intros v. apply (beh_trans _ _ s' _ _ (phi v)); [|apply beh_sym, QB]. rewrite <- (q_idem _ _ _ _ _ Q v) at 2. apply QB. }
    assert (DOWN : forall p r a, In (Edge p r a) (aa_T s') -> ht r < ht p).
    { intros p r a J. apply (q_T _ _ _ _ _ Q) in J. destruct J as (_ & r0 & J & <-). rewrite (q_ht _ _ _ _ _ Q). apply (n_down _ _ _ _ I _ _ _ J). }
    assert (NEXT : forall p n, In p (aa_V s') -> ht p = S n -> exists r a, In (Edge p r a) (aa_T s') /\ ht r = n).
    { intros p n J Hp. destruct (VV p J) as [J1 J2]. destruct (n_next _ _ _ _ I p n J1 Hp) as (r & a & T & Hr). exists (phi r), a. rewrite (q_ht _ _ _ _ _ Q). split; [|exact Hr]. apply (q_T _ _ _ _ _ Q). split; [exact J2|]. exists r. auto. }
    split.
    - rewrite (q_q0 _ _ _ _ _ Q). apply (n_q0 _ _ _ _ I).
    - rewrite (q_final _ _ _ _ _ Q). apply (n_final _ _ _ _ I).
    - intros v J. apply (n_V _ _ _ _ I), VV, J.
    - intros v J. destruct (VV v J) as [J1 J2]. apply (beh_trans _ _ s _ _ v); [apply (n_same _ _ _ _ I v J1)|]. rewrite <- J2 at 2. apply QB.
    - exact DOWN.
    - exact NEXT.
    - split; [apply NoDup_sof|]. intros v. rewrite In_sof, filter_In, Nat.eqb_eq, in_flat_map. split.
      + intros [(q & J1 & J2) Hv]. apply in_map_iff in J2. destruct J2 as ([p r a] & <- & J2). apply (In_obs_nin sym _ _ _ _ R') in J2. split; [apply (narep_closed sym _ _ R' _ _ _ (proj2 J2))|exact Hv].
      + intros [J Hv]. split; [|exact Hv]. destruct (NEXT v h J Hv) as (r & a & T & Hr). exists r. split.
        * apply TI. split; [apply VV, (narep_closed sym _ _ R' _ _ _ T)|exact Hr].
        * apply in_map_iff. exists (Edge v r a). split; [reflexivity|]. apply (In_obs_nin sym _ _ _ _ R'). auto.
    - intros TGT x y Jx Jy Lx [SY SG].
      assert (Hxy : ht x = ht y).
      { assert (LE : forall x y, In x (aa_V s') -> sigeq s' x y -> ht x <= ht y).
        { clear - NEXT DOWN. intros x y Vx [_ SG]. destruct (ht x) as [|n] eqn:E; [lia|]. destruct (NEXT x n Vx E) as (r & a & T & <-). apply SG, DOWN in T. lia. }
        pose proof (LE x y Jx SG). pose proof (LE y x Jy (sigeq_sym _ _ _ SG)). lia. }
      destruct (VV x Jx) as [Vx Fx], (VV y Jy) as [Vy Fy].
      assert (LOW : forall v, ht v <= h -> phi v = v -> forall a r, In (Edge v r a) (aa_T s') <-> In (Edge v r a) (aa_T s)).
      { intros v Lv Fv a r. rewrite (q_T _ _ _ _ _ Q). split.
        - intros (_ & r0 & T & Er). pose proof (n_down _ _ _ _ I _ _ _ T) as D. rewrite (q_level _ _ _ _ _ Q) in Er by lia. subst r0. exact T.
        - intros T. split; [exact Fv|]. exists r. split; [exact T|]. pose proof (n_down _ _ _ _ I _ _ _ T) as D. apply (q_level _ _ _ _ _ Q). lia. }
      assert (SG0 : lsigeq pvl s x y).
      { split; [exact SY|]. destruct SG as [S1 S2]. split; [rewrite <- (q_final _ _ _ _ _ Q); exact S1|]. intros a r. rewrite <- (LOW x), <- (LOW y) by (lia || assumption). apply S2. }
      destruct (Nat.eq_dec (ht x) h) as [Hx|Nx]; [|apply (n_uniq _ _ _ _ I TGT x y); auto; lia].
      rewrite <- Fx, <- Fy. apply (U TGT); [| |exact SG0]; apply (Permutation_in _ (Permutation_sym PL)), TI; split; auto; lia.
    - intros v V0 NV. destruct (in_dec Nat.eq_dec v (aa_V s)) as [Vv|NVv].
      + exists (phi v). split; [apply VP, Vv|]. split.
        * pose proof (q_le _ _ _ _ _ Q v). assert (phi v <> v) by (intros F; apply NV; rewrite <- F; apply VP, Vv). split; [lia|apply (q_ht _ _ _ _ _ Q)].
        * apply (beh_trans _ _ s _ _ (phi v)); [apply (n_same _ _ _ _ I), (q_in _ _ _ _ _ Q), Vv|]. apply (beh_trans _ _ s _ _ v); [apply BP|apply beh_sym, (n_same _ _ _ _ I v Vv)].
      + destruct (n_removed _ _ _ _ I v V0 NVv) as (q & Vq & [Lq Hq] & Sq). exists (phi q). split; [apply VP, Vq|]. split; [pose proof (q_le _ _ _ _ _ Q q); rewrite (q_ht _ _ _ _ _ Q); split; [lia|exact Hq]|].
        apply (beh_trans _ _ s0 _ _ q); [|exact Sq]. apply (beh_trans _ _ s _ _ (phi q)); [apply (n_same _ _ _ _ I), (q_in _ _ _ _ _ Q), Vq|]. apply (beh_trans _ _ s _ _ q); [apply BP|apply beh_sym, (n_same _ _ _ _ I q Vq)].
  Qed.
  Lemma nllevel_empty s0 h s : nlinv s0 h [] s -> forall v, In v (aa_V s) -> (forall p r a, In (Edge p r a) (aa_T s) -> In r (aa_V s)) -> ht v < h.
  Proof.
    intros I v Vv CL. destruct (Nat.lt_ge_cases (ht v) h) as [L|G]; [exact L|]. exfalso. revert v Vv G. assert (K : forall n v, In v (aa_V s) -> ht v = n + h -> False).
    { induction n as [|n IH]; intros v Vv Hv; [destruct (n_todo _ _ _ _ I) as [_ T]; apply (T v); auto|]. destruct (n_next _ _ _ _ I v (n + h) Vv Hv) as (r & a & J & Hr). apply (IH r (CL _ _ _ J) Hr). }
    intros v Vv G. apply (K (ht v - h) v Vv). lia.
  Qed.
  Lemma nbeh_uniq s0 h (g : naut A) s : tgt -> narep sym g s -> nlinv s0 h [] s -> forall n x y, ht x < n -> In x (aa_V s) -> In y (aa_V s) -> beh pvl s s x y -> x = y.
  Proof.
    intros TGT R I. pose proof (narep_det sym g s R) as DET. pose proof (narep_closed sym g s R) as CL.
    induction n as [|n IH]; intros x y L Vx Vy SW; [lia|].
    assert (ST : forall p q a r, sfollows pvl s s p q -> In (Edge p r a) (aa_T s) -> exists r', In (Edge q r' a) (aa_T s)).
    { intros p q a r S1 J. destruct (S1 [a] r) as (t & P & _); [econstructor; [exact J|constructor]|]. inversion P as [|? ? r' ? ? J' P']; subst. exists r'. exact J'. }
    assert (NX1 : forall p q a r r', sfollows pvl s s p q -> In (Edge p r a) (aa_T s) -> In (Edge q r' a) (aa_T s) -> sfollows pvl s s r r').
    { intros p q a r r' S1 J J' w t P. destruct (S1 (a :: w) t) as (t' & P' & F'); [econstructor; eassumption|]. inversion P' as [|? ? r2 ? ? J2 P2]; subst. rewrite (DET _ _ _ _ J' J2). exists t'. auto. }
    assert (NX : forall p q a r r', beh pvl s s p q -> In (Edge p r a) (aa_T s) -> In (Edge q r' a) (aa_T s) -> beh pvl s s r r').
    { intros p q a r r' [S1 S2] J J'. split; [apply (NX1 p q a)|apply (NX1 q p a)]; assumption. }
    apply (n_uniq _ _ _ _ I TGT x y Vx Vy).
    - apply (nllevel_empty s0 h s I x Vx). intros p r a J. apply (CL _ _ _ J).
    - destruct (proj1 SW [] x (path_nil _ x)) as (y' & P & LB & FN). inversion P; subst y'. split; [auto|]. split; [auto|]. intros a r. split; intros J.
      + destruct (ST x y a r (proj1 SW) J) as [r' J']. assert (r = r') as <-; [|exact J']. apply IH; [pose proof (n_down _ _ _ _ I _ _ _ J); lia|apply (CL _ _ _ J)|apply (CL _ _ _ J')|apply (NX x y a); assumption].
      + destruct (ST y x a r (proj2 SW) J) as [r' J']. assert (r' = r) as <-; [|exact J']. apply IH; [pose proof (n_down _ _ _ _ I _ _ _ J'); lia|apply (CL _ _ _ J')|apply (CL _ _ _ J)|apply (NX x y a); assumption].
  Qed.
End M.

Section Loop.
  Context {A B C : Type} {EA : EqDec A} {EB : EqDec B} {EC : EqDec C}.
  Variable sym : nat -> option A.
  Variables (pv : option (nat -> B)) (pe : option (edge (option A) -> C)) (heights : dict nat nat).
  Let ht := height_of heights.
  Lemma nlminimize_loop_spec ord ord_v s0 N : valid_order ord -> valid_order ord_v -> (forall x y, In x (aa_V s0) -> In y (aa_V s0) -> vlab sym pv x = vlab sym pv y -> sym x = sym y) -> (forall v, In v (aa_V s0) -> ht v < N) -> forall fuel h todo (g : naut A) s, narep sym g s -> nlinv sym pv pe ht s0 h todo s -> N <= h + fuel ->
    exists g' s' h', nlminimize_loop pv pe fuel ord ord_v heights h todo g = Some (g', Ok (Z.of_nat h' - 1)%Z) /\ narep sym g' s' /\ nlinv sym pv pe ht s0 h' [] s' /\ h <= h' /\ forall n, h <= n < h' -> exists v, In v (aa_V s0) /\ ht v = n.
  Proof.
    intros OE OV RF BN. induction fuel as [|fuel IH]; intros h todo g s R I F.
    - destruct todo as [|x todo]; cbn [nlminimize_loop]; [exists g, s, h; split; [reflexivity|split; [exact R|split; [exact I|split; [lia|intros; lia]]]]|].
      exfalso. assert (J : In x (aa_V s) /\ ht x = h) by (apply (n_todo _ _ _ _ _ _ _ _ I); left; reflexivity). pose proof (BN x (n_V _ _ _ _ _ _ _ _ I x (proj1 J))). lia.
    - destruct todo as [|x todo]; cbn [nlminimize_loop]; [exists g, s, h; split; [reflexivity|split; [exact R|split; [exact I|split; [lia|intros; lia]]]]|].
      destruct (nlinv_step sym pv pe ht ord s0 h (x :: todo) (ord_v fuel (x :: todo)) s g OE RF R I (OV _ _)) as (m & g' & s' & -> & -> & R' & I').
      destruct (IH _ _ g' s' R' I' ltac:(lia)) as (g2 & s2 & h2 & E & R2 & I2 & L2 & K2). exists g2, s2, h2. split; [exact E|]. split; [exact R2|]. split; [exact I2|]. split; [lia|].
      intros n Hn. destruct (Nat.eq_dec n h) as [->|]; [|apply K2; lia]. exists x. destruct (proj1 (proj2 (n_todo _ _ _ _ _ _ _ _ I) x) (or_introl eq_refl)) as [V1 H1]. split; [apply (n_V _ _ _ _ _ _ _ _ I), V1|exact H1].
  Qed.
End Loop.
