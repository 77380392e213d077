(** Theorem C121 on revuz_minimize.py: node automata with cycles. *)
From Coq Require Import ZArith.
From Verif Require Import Graph GraphProofs Automaton AutomatonSpec AutomatonProofs AutomatonProofs2 AutomatonProofs3 NodeAut NodeAutSpec NodeAutProofs Heap Revuz RevuzSpec RevuzProofs RevuzProofs2 RevuzProofs3 TRevuz RevuzNode RevuzNodeSpec RevuzNodeProofs TRevuzNode RevuzCycleSpec RevuzCycleProofs RevuzCycleProofs2 RevuzNodeCycleProofs TRevuzCycle Base BaseProofs.

Section A.
  Context {A : Type} {EA : EqDec A}.
  Variable sym : nat -> option A.
  Notation narep := (narep sym).
  Lemma npath_rep (g : naut A) s q w z : narep g s -> path (NA_edges g) q w z <-> path (aa_T s) q w z.
  Proof. intros R. split; apply path_perm; intros e; rewrite (In_obs_nedges sym g s _ R); tauto. Qed.
  Lemma nrep_height (g : naut A) s ord m0 fuel : narep g s -> valid_order ord ->
    let arc := aut_arc (NA_edges g) in let height := revuz_height (NA_vertices g) (NA_out_degree g) (INA_in_edges g) fuel ord [] m0 in
    ((exists n v, upath arc (S n) v v /\ ends arc v) -> height = None) /\
    (cycles_apart arc -> length (NA_vertices g) <= fuel -> exists r m, height = Some (r, m) /\
      (forall v, (In v (NA_vertices g) /\ exists n, dget m v = Some n /\ height_is arc v n /\ (Z.of_nat n <= r)%Z) \/ (~ (In v (NA_vertices g) /\ ends arc v) /\ dget m v = dget m0 v)) /\
      ((r = (-1)%Z /\ forall v, In v (NA_vertices g) -> ~ ends arc v) \/ exists v n, In v (NA_vertices g) /\ height_is arc v n /\ r = Z.of_nat n)).
  Proof.
    intros R O. pose proof (narep_V sym g s R) as EV. apply height_cycles; auto.
    - intros v u _. apply (nin_arc sym g s v u R).
    - intros v Vv. rewrite EV in Vv. apply (nout0 sym g s v R Vv).
    - intros u v. apply (narc_in sym g s u v R).
    - rewrite EV. apply (narep_nodup sym g s R).
  Qed.
  Lemma nends_uniq ht B s0 h (g : naut A) s : (forall v, ht v <= B) -> narep g s -> ncinv sym ht B s0 h [] s -> forall n x y, ht x < n \/ ht x = B -> In x (aa_V s) -> In y (aa_V s) -> sym x = sym y -> same_ends ht B s s x y -> x = y.
  Proof.
    intros HB R I. pose proof (narep_det sym g s R) as DET. pose proof (narep_closed sym g s R) as CL. pose proof (narep_label sym g s R) as LBL.
    assert (DEAD : forall x y, ht x = B -> same_ends ht B s s x y -> x = y).
    { intros x y Hx [_ K]. pose proof (proj1 (K x Hx []) ltac:(constructor)) as P. inversion P. reflexivity. }
    induction n as [|n IH]; intros x y L Vx Vy SY SE; [destruct L as [L|L]; [lia|apply (DEAD x y L SE)]|].
    destruct (Nat.eq_dec (ht x) B) as [E|NE]; [apply (DEAD x y E SE)|]. pose proof (HB x) as LB.
    assert (NX : forall p q a r r', same_ends ht B s s p q -> In (Edge p r a) (aa_T s) -> In (Edge q r' a) (aa_T s) -> same_ends ht B s s r r').
    { intros p q a r r' [S1 K1] J J'. split.
      - intros w. destruct (S1 (a :: w)) as [S2 S3]. rewrite (right_cons _ _ p r), (right_cons _ _ q r') in S2 by (eauto using DET). rewrite (readable_cons _ p r), (readable_cons _ q r') in S3 by (eauto using DET). tauto.
      - intros z Hz w. specialize (K1 z Hz (a :: w)). rewrite (path_cons _ p r), (path_cons _ q r') in K1 by (eauto using DET). exact K1. }
    assert (ST : forall p q a r, same_ends ht B s s p q -> In (Edge p r a) (aa_T s) -> exists r', In (Edge q r' a) (aa_T s)).
    { intros p q a r [S1 _] J. destruct (S1 [a]) as [_ [S2 _]]. destruct S2 as [t P]; [exists r; econstructor; [exact J|constructor]|]. inversion P as [|? ? r' ? ? J' P']; subst. exists r'. exact J'. }
    apply (nc_uniq _ _ _ _ _ _ _ I x y Vx Vy).
    - apply (nclevel_empty sym ht B s0 h s I); [intros p r a J; apply (CL _ _ _ J)|exact Vx|lia].
    - split; [exact SY|]. split.
      + destruct SE as [SW _]. destruct (SW []) as [F _]. rewrite !right_nil in F. destruct (aa_final s x), (aa_final s y); try reflexivity; [symmetry|]; tauto.
      + intros a r. split; intros J.
        * destruct (ST x y a r SE J) as [r' J']. assert (r = r') as <-; [|exact J']. apply IH; [pose proof (nc_down _ _ _ _ _ _ _ I _ _ _ J); lia|apply (CL _ _ _ J)|apply (CL _ _ _ J')|rewrite <- (LBL _ _ _ J), <- (LBL _ _ _ J'); reflexivity|apply (NX x y a); assumption].
        * destruct (ST y x a r (ends_sym _ _ _ _ _ _ SE) J) as [r' J']. assert (r' = r) as <-; [|exact J']. apply IH; [pose proof (nc_down _ _ _ _ _ _ _ I _ _ _ J'); lia|apply (CL _ _ _ J')|apply (CL _ _ _ J)|rewrite <- (LBL _ _ _ J), <- (LBL _ _ _ J'); reflexivity|apply (NX x y a); assumption].
  Qed.

End A.

(** C121 on the class IncidenceNodeAutomaton. *)
Theorem C121_revuz_node (A : Type) (EA : EqDec A) (ops : list (rop A)) fuel ord ord_v : ndisciplined ns_init (graph_calls ops) -> valid_order ord -> valid_order ord_v ->
  let g := INA_history ops in let arc := aut_arc (NA_edges g) in
  cycles_apart arc -> length (NA_vertices g) <= fuel ->
  exists g' h, node_revuz_minimize fuel ord ord_v [] g = Some (g', Ok h) /\ na_q0 g' = na_q0 g /\
    (forall q, In q (NA_vertices g') <-> In q (NA_vertices g) /\ forall q', In q' (NA_vertices g) -> q' < q -> ~ ntwins g q' q) /\
    (forall q, In q (NA_vertices g) -> exists q', In q' (NA_vertices g') /\ q' <= q /\ ntwins g q' q) /\
    (forall q, In q (NA_vertices g') -> na_symbol g' q = na_symbol g q /\ forall w, (naccepted g' q w <-> naccepted g q w) /\ (readable (NA_edges g') q w <-> readable (NA_edges g) q w)) /\
    (forall q, In q (NA_vertices g) -> ~ ends arc q -> In q (NA_vertices g') /\ forall r a, In (Edge q r a) (NA_edges g') <-> In (Edge q r a) (NA_edges g)) /\
    (forall i, na_q0 g = Some i -> In i (NA_vertices g') -> forall w, NA_accepts g' w = NA_accepts g w) /\
    (forall i, na_q0 g = Some i -> ~ In i (NA_vertices g') -> forall w, NA_accepts g' w = match w with [] => Ok (na_final g i) | _ => Raise KeyError end) /\
    ((h = (-1)%Z /\ forall v, In v (NA_vertices g) -> ~ ends arc v) \/
      exists v k, In v (NA_vertices g) /\ height_is arc v k /\ h = Z.of_nat k /\ forall u m, In u (NA_vertices g) -> height_is arc u m -> m <= k) /\
    (forall q, na_final g' q = na_final g q) /\
    (forall q r a, In (Edge q r a) (NA_edges g') <-> In q (NA_vertices g') /\ In r (NA_vertices g') /\ exists r0, In (Edge q r0 a) (NA_edges g) /\ ntwins g r r0).
Proof.
  intros D OE OV g arc CA F. pose proof (history_rep ops _ _ nrep_init D) as NR. fold (INA_history ops) in NR. fold g in NR. set (s1 := fst (runs ns_step ns_init (graph_calls ops))) in NR.
  pose (sym := ns_sym s1). pose (s := AA (ns_next s1) (ns_V s1) (ns_T s1) (na_q0 g) (na_final g)).
  assert (R : narep sym g s) by (split; [unfold sym; cbn; destruct s1; exact NR|split; reflexivity]). clearbody g sym s. clear D ops NR s1.
    destruct (proj2 (nrep_height sym g s ord_v [] fuel R OV) CA F) as (r & m & E & HT & _). fold arc in HT. unfold node_revuz_minimize. rewrite E. clear E.
    assert (EV : NA_vertices g = aa_V s) by apply (narep_V sym g s R). rewrite EV in HT.
    assert (AI : forall u v, arc u v -> In u (aa_V s) /\ In v (aa_V s)) by (intros u v J; rewrite <- EV; apply (narc_in sym g s u v R J)).
    pose (B := length (aa_V s)). pose (ht := fun v => match dget m v with Some k => k | None => B end).
    assert (CASE : forall v, (ht v < B /\ dget m v = Some (ht v) /\ In v (aa_V s) /\ height_is arc v (ht v)) \/ (ht v = B /\ dget m v = None /\ ~ (In v (aa_V s) /\ ends arc v))).
    { intros v. unfold ht. destruct (HT v) as [(Vv & k & G & HK & _)|[NE G]]; rewrite G; [left|right; auto]. split; [|auto]. destruct HK as [(l & LF & P) _]. apply (leaf_path_short (aa_V s) arc AI k v CA). split; [exact Vv|]. exists l. auto. }
    assert (LIVE : forall v, ht v < B -> In v (aa_V s) /\ height_is arc v (ht v)) by (intros v L; destruct (CASE v) as [?|[? _]]; [tauto|lia]).
    assert (DEAD : forall v, In v (aa_V s) -> ~ ends arc v <-> ht v = B).
    { intros v Vv. destruct (CASE v) as [(L & _ & _ & [(l & LF & P) _])|(Eb & _ & NE)]; [split; [intros N; destruct N; exists (ht v), l; auto|lia]|]. split; [auto|]. intros _ EN. apply NE. auto. }
    assert (ENDL : forall v, In v (aa_V s) -> ends arc v -> ht v < B).
    { intros v Vv EN. destruct (CASE v) as [[L _]|(_ & _ & NE)]; [exact L|]. destruct NE. auto. }
    assert (HB : forall v, ht v <= B) by (intros v; destruct (CASE v) as [[? _]|[? _]]; lia).
    assert (HH : forall v, ht v < B -> height_of m v = ht v) by (intros v L; destruct (CASE v) as [(_ & G & _)|[? _]]; [unfold height_of; rewrite G; reflexivity|lia]).
    assert (ARC : forall p q a, In (Edge p q a) (aa_T s) -> arc p q) by (intros p q a J; exists a; apply (In_obs_nedges sym g s _ R), J).
    assert (I0 : ncinv sym ht B s 0 (leaves_of (NA_vertices g) (NA_out_degree g) []) s).
    { split; try reflexivity; auto.
      - lia.
      - intros v _. apply ends_refl.
      - intros p x a J. destruct (AI _ _ (ARC _ _ _ J)) as [Vp Vx]. destruct (CASE x) as [(Lx & _ & _ & [(l & L & P) _])|[Ex _]]; [left|auto].
        assert (EP : ends arc p) by (exists (S (ht x)), l; split; [exact L|]; econstructor; [apply (ARC _ _ _ J)|exact P]). pose proof (ENDL p Vp EP) as LP. destruct (LIVE p LP) as [_ [_ MX]]. split; [|exact LP].
        apply (MX (S (ht x)) l L). econstructor; [apply (ARC _ _ _ J)|exact P].
      - intros p k Vp Hp LP. destruct (LIVE p LP) as [_ [(l & L & P) MX]]. rewrite Hp in *. apply upath_first in P; [|exact L]. destruct P as (u & [a J] & P). apply (In_obs_nedges sym g s _ R) in J. destruct (AI _ _ (ARC _ _ _ J)) as [_ Vu]. exists u, a. split; [exact J|].
        assert (LU : ht u < B) by (apply (ENDL u Vu); exists k, l; auto). destruct (LIVE u LU) as [_ [(l' & L' & P') MX']]. pose proof (MX' k l L P). specialize (MX (S (ht u)) l' L'). assert (S (ht u) <= S k); [|lia]. apply MX. econstructor; [apply (ARC _ _ _ J)|exact P'].
      - intros p x a J LP H0. destruct (LIVE p LP) as [_ [(l & L & P) _]]. rewrite H0 in P. apply upath_first in P; [|exact L]. subst l. apply (L x), (ARC _ _ _ J).
      - intros p Vp Hp. apply (DEAD p Vp) in Hp. destruct (In_obs_nout sym g s p R Vp) as (es & EO & M). destruct es as [|[p' x a] es].
        + destruct Hp. exists 0, p. split; [|constructor]. apply (nout0 sym g s p R Vp). unfold NA_out_degree. rewrite EO. reflexivity.
        + destruct (proj1 (M (Edge p' x a)) (or_introl eq_refl)) as [J1 J2]. cbn in J1. subst p'. exists x, a. exact J2.
      - intros p _. split; [auto|tauto].
      - cbn [leaves_of]. rewrite EV. split; [apply NoDup_filter, (narep_nodup sym g s R)|]. intros v. rewrite filter_In, Nat.eqb_eq. split.
        + intros [Vv L]. rewrite (nout0 sym g s v R Vv) in L. fold arc in L. split; [exact Vv|]. assert (LV : ht v < B) by (apply (ENDL v Vv); exists 0, v; split; [exact L|constructor]). split; [|lia]. destruct (LIVE v LV) as [_ [(l & L' & P) _]]. destruct (ht v) as [|k]; [reflexivity|]. apply upath_first in P; [|exact L']. destruct P as (u & J & _). destruct (L u J).
        + intros (Vv & H0 & L0). rewrite (nout0 sym g s v R Vv). fold arc. split; [exact Vv|]. destruct (LIVE v ltac:(lia)) as [_ [(l & L' & P) _]]. rewrite H0 in P. apply upath_first in P; [|exact L']. subst l. exact L'.
      - intros; lia.
      - intros v Vv NV. contradiction. }
    destruct (ncminimize_loop sym ht B m HH HB ord ord_v s OE OV fuel 0 _ g s R I0) as (g' & s' & h' & E & R' & I' & _ & K); [unfold B; rewrite <- EV; lia|].
    exists g', (Z.of_nat h' - 1)%Z. split; [exact E|].
    assert (EV' : NA_vertices g' = aa_V s') by apply (narep_V sym g' s' R').
    assert (Q0 : na_q0 g' = na_q0 g).
    { assert (Q1 : na_q0 g = aa_q0 s) by apply R. assert (Q2 : na_q0 g' = aa_q0 s') by apply R'. rewrite Q1, Q2. apply (nc_q0 _ _ _ _ _ _ _ I'). }
    assert (ACC : forall q, In q (aa_V s') -> forall w, (naccepted g' q w <-> naccepted g q w) /\ (readable (NA_edges g') q w <-> readable (NA_edges g) q w)).
    { intros q Vq w. rewrite (nright_rep sym g' s' q w R'), (nright_rep sym g s q w R), (nreadable_rep sym g' s' q w R'), (nreadable_rep sym g s q w R). destruct (proj1 (nc_same _ _ _ _ _ _ _ I' q Vq) w). split; symmetry; assumption. }
    assert (PV : forall q w z, path (aa_T s) q w z -> In q (aa_V s) -> In z (aa_V s)) by (intros q w z P; induction P; [auto|]; intros _; apply IHP, (narep_closed sym g s R _ _ _ H)).
    assert (TW : forall x y, In x (aa_V s) -> In y (aa_V s) -> ntwins g x y <-> sym x = sym y /\ same_ends ht B s s x y).
    { intros x y Vx Vy. unfold ntwins, same_ends. rewrite (nequiv_rep sym g s x y R). fold arc. split.
      - intros [[H0 H1] H2]. split; [exact H0|]. split; [exact H1|]. intros z Hz w. destruct (in_dec Nat.eq_dec z (aa_V s)) as [Vz|NV]; [|split; intros P; destruct NV; eapply PV; eassumption]. rewrite <- !(npath_rep sym g s _ w z R). apply H2, (DEAD z Vz), Hz.
      - intros (H0 & H1 & H2). split; [auto|]. intros z Hz w. rewrite !(npath_rep sym g s _ w z R). destruct (in_dec Nat.eq_dec z (aa_V s)) as [Vz|NV]; [|split; intros P; destruct NV; eapply PV; eassumption]. apply H2, (DEAD z Vz), Hz. }
    assert (MIN : forall x y, In x (aa_V s') -> In y (aa_V s') -> sym x = sym y -> same_ends ht B s s x y -> x = y).
    { intros x y Vx Vy SY SE. apply (nends_uniq sym ht B s h' g' s' HB R' I' (S (ht x)) x y); [lia|assumption..|]. apply (ends_trans _ _ _ s _ _ x); [apply ends_sym, (nc_same _ _ _ _ _ _ _ I' x Vx)|]. apply (ends_trans _ _ _ s _ _ y); [exact SE|apply (nc_same _ _ _ _ _ _ _ I' y Vy)]. }
    assert (REP : forall q, In q (aa_V s) -> exists q', In q' (aa_V s') /\ (q' = q \/ q' < q) /\ sym q' = sym q /\ same_ends ht B s s q' q).
    { intros q Vq. destruct (in_dec Nat.eq_dec q (aa_V s')) as [V'|NV]; [exists q; split; [exact V'|]; split; [auto|]; split; [reflexivity|apply ends_refl]|]. destruct (nc_removed _ _ _ _ _ _ _ I' q Vq NV) as (q' & V' & [L' _] & SY & SW). exists q'. auto. }
    split; [exact Q0|]. rewrite EV, EV'. split; [|split; [|split; [|split; [|split; [|split; [|split; [|split]]]]]]].
    - intros q. split.
      + intros Vq. pose proof (nc_V _ _ _ _ _ _ _ I' q Vq) as Vs. split; [exact Vs|]. intros q' V' L' T. apply (TW q' q V' Vs) in T. destruct (REP q' V') as (q2 & V2 & L2 & Y2 & S2). destruct T as [TY T]. assert (q2 = q); [|lia]. apply MIN; [exact V2|exact Vq|congruence|]. apply (ends_trans _ _ _ s _ _ q'); assumption.
      + intros [Vq H]. destruct (REP q Vq) as (q' & V' & [->|L'] & Y' & S'); [exact V'|]. pose proof (nc_V _ _ _ _ _ _ _ I' q' V') as Vs. destruct (H q' Vs L'). apply (TW q' q Vs Vq). auto.
    - intros q Vq. destruct (REP q Vq) as (q' & V' & L' & Y' & S'). exists q'. split; [exact V'|]. split; [lia|]. apply (TW q' q (nc_V _ _ _ _ _ _ _ I' q' V') Vq). auto.
    - intros q Vq. split; [rewrite (narep_sym sym g' s' q R'), (narep_sym sym g s q R); reflexivity|apply ACC, Vq].
    - intros q Vq NE. apply (DEAD q Vq) in NE. destruct (nc_frozen _ _ _ _ _ _ _ I' q NE) as [F1 F2]. split; [apply F1, Vq|]. intros x a. rewrite (In_obs_nedges sym g' s' _ R'), (In_obs_nedges sym g s _ R). apply F2.
    - intros i Ei Vi w. pose proof (nv_accepts g _ w (narep_vrep sym g s R)) as B1. pose proof (nv_accepts g' _ w (narep_vrep sym g' s' R')) as B2. cbn [nv_q0 nv_V nv_T nv_final] in B1, B2.
      assert (Q1 : na_q0 g = aa_q0 s) by apply R. assert (Q2 : na_q0 g' = aa_q0 s') by apply R'. rewrite <- Q1, Ei in B1. rewrite <- Q2, Q0, Ei in B2. pose proof (nc_V _ _ _ _ _ _ _ I' i Vi) as Vs.
      rewrite (proj2 (mem_spec _ _) Vi) in B2. rewrite (proj2 (mem_spec _ _) Vs) in B1. destruct B1 as (b1 & -> & B1), B2 as (b2 & -> & B2). f_equal. apply eq_iff_eq_true. rewrite B1, B2. symmetry. apply (proj1 (nc_same _ _ _ _ _ _ _ I' i Vi)).
    - intros i Ei NV w. pose proof (nv_accepts g' _ w (narep_vrep sym g' s' R')) as B2. cbn [nv_q0 nv_V nv_T nv_final] in B2.
      assert (Q2 : na_q0 g' = aa_q0 s') by apply R'. rewrite <- Q2, Q0, Ei in B2. rewrite (proj2 (mem_false _ _) NV) in B2. rewrite B2, (nc_final _ _ _ _ _ _ _ I'). assert (HF : forall q, na_final g q = aa_final s q) by apply R. rewrite HF. reflexivity.
    - assert (UB : forall v, In v (aa_V s) -> ht v < B -> ht v < h').
      { intros v Vv LV. assert (CL : forall p r a, In (Edge p r a) (aa_T s') -> In r (aa_V s')) by (intros p x a J; apply (narep_closed sym g' s' R' _ _ _ J)). destruct (in_dec Nat.eq_dec v (aa_V s')) as [V'|NV]; [apply (nclevel_empty sym ht B s h' s' I' CL v V' LV)|]. destruct (nc_removed _ _ _ _ _ _ _ I' v Vv NV) as (q & Vq & [_ Eq] & _). rewrite <- Eq in *. apply (nclevel_empty sym ht B s h' s' I' CL q Vq LV). }
      destruct h' as [|h'].
      + left. split; [reflexivity|]. intros v Vv EN. specialize (UB v Vv (ENDL v Vv EN)). lia.
      + right. destruct (K h' ltac:(lia)) as (v & Vv & Hv). pose proof (nc_h _ _ _ _ _ _ _ I') as LB. exists v, h'. split; [exact Vv|]. split; [rewrite <- Hv; apply LIVE; lia|]. split; [lia|]. intros u k Vu HK.
        destruct HK as [(l & L & P) _]. assert (LU : ht u < B) by (apply (ENDL u Vu); exists k, l; auto). pose proof (UB u Vu LU). pose proof (proj2 (proj2 (LIVE u LU)) k l L P). lia.
    - intros q. assert (H1 : na_final g q = aa_final s q) by apply R. assert (H2 : na_final g' q = aa_final s' q) by apply R'. rewrite H1, H2, (nc_final _ _ _ _ _ _ _ I'). reflexivity.
    - rename r into hgt. pose proof (narep_det sym g s R) as DET. pose proof (narep_closed sym g s R) as CLO. pose proof (narep_det sym g' s' R') as DET'. pose proof (narep_closed sym g' s' R') as CLO'.
      pose proof (narep_label sym g s R) as LBL. pose proof (narep_label sym g' s' R') as LBL'.
      assert (NX : forall q a r r0, In q (aa_V s') -> In (Edge q r a) (aa_T s') -> In (Edge q r0 a) (aa_T s) -> sym r = sym r0 /\ same_ends ht B s s r r0).
      { intros q a r r0 Vq J J0. split; [rewrite <- (LBL' _ _ _ J), <- (LBL _ _ _ J0); reflexivity|]. destruct (nc_same _ _ _ _ _ _ _ I' q Vq) as [S1 K1]. apply (ends_trans _ _ _ s' _ _ r); [apply (nc_same _ _ _ _ _ _ _ I' r), (CLO' _ _ _ J)|]. apply ends_sym. split.
        - intros w. destruct (S1 (a :: w)) as [S2 S3]. rewrite (right_cons _ _ q r0), (right_cons _ _ q r) in S2 by eauto using DET, DET'. rewrite (readable_cons _ q r0), (readable_cons _ q r) in S3 by eauto using DET, DET'. split; assumption.
        - intros z Hz w. specialize (K1 z Hz (a :: w)). rewrite (path_cons _ q r0), (path_cons _ q r) in K1 by eauto using DET, DET'. exact K1. }
      intros q r a. rewrite (In_obs_nedges sym g' s' _ R'). split.
      + intros J. destruct (CLO' _ _ _ J) as [Vq Vr]. split; [exact Vq|]. split; [exact Vr|]. destruct (nc_same _ _ _ _ _ _ _ I' q Vq) as [S1 _]. destruct (S1 [a]) as [_ [_ S2]]. destruct S2 as [t P]; [exists r; econstructor; [exact J|constructor]|].
        inversion P as [|? ? r0 ? ? J0 _]; subst. exists r0. split; [apply (In_obs_nedges sym g s _ R), J0|]. apply TW; [apply (nc_V _ _ _ _ _ _ _ I' r Vr)|apply (CLO _ _ _ J0)|]. apply (NX q a); assumption.
      + intros (Vq & Vr & r0 & J0 & T). apply (In_obs_nedges sym g s _ R) in J0. destruct (nc_same _ _ _ _ _ _ _ I' q Vq) as [S1 _]. destruct (S1 [a]) as [_ [S2 _]]. destruct S2 as [t P]; [exists r0; econstructor; [exact J0|constructor]|].
        inversion P as [|? ? r1 ? ? J1 _]; subst. assert (r1 = r) as <-; [|exact J1]. apply TW in T; [|apply (nc_V _ _ _ _ _ _ _ I' r Vr)|apply (CLO _ _ _ J0)]. destruct T as [TY T], (NX q a r1 r0 Vq J1 J0) as [NY N1].
        apply MIN; [apply (CLO' _ _ _ J1)|exact Vr|congruence|]. apply (ends_trans _ _ _ s _ _ r0); [exact N1|apply ends_sym, T].
Qed.
Print Assumptions C121_revuz_node.

(** C106: on an acyclic node automaton the transitions that remain lead to the kept state of the class of their former target. *)
Theorem C106_transitions (A : Type) (EA : EqDec A) (ops : list (rop A)) fuel ord ord_v : ndisciplined ns_init (graph_calls ops) -> valid_order ord -> valid_order ord_v ->
  let g := INA_history ops in
  acyclic (aut_arc (NA_edges g)) -> length (NA_vertices g) <= fuel ->
  exists g' h, node_revuz_minimize fuel ord ord_v [] g = Some (g', Ok h) /\ (forall q, na_final g' q = na_final g q) /\
    forall q r a, In (Edge q r a) (NA_edges g') <-> In q (NA_vertices g') /\ In r (NA_vertices g') /\ exists r0, In (Edge q r0 a) (NA_edges g) /\ nequiv g r r0.
Proof.
  intros D OE OV g AC F. assert (CA : cycles_apart (aut_arc (NA_edges g))) by (intros k v C; destruct (AC k v C)).
  destruct (C121_revuz_node A EA ops fuel ord ord_v D OE OV CA F) as (g' & h & E & _ & _ & _ & _ & _ & _ & _ & _ & FI & TR). exists g', h. split; [exact E|]. split; [exact FI|].
  pose proof (history_rep ops _ _ nrep_init D) as NR. fold (INA_history ops) in NR. fold g in NR. set (s1 := fst (runs ns_step ns_init (graph_calls ops))) in NR.
  pose (sym := ns_sym s1). pose (s := AA (ns_next s1) (ns_V s1) (ns_T s1) (na_q0 g) (na_final g)).
  assert (R : narep sym g s) by (split; [unfold sym; cbn; destruct s1; exact NR|split; reflexivity]).
  assert (EN : forall v, ends (aut_arc (NA_edges g)) v).
  { intros v. destruct (in_dec Nat.eq_dec v (NA_vertices g)) as [I|NI].
    - destruct (nheights_of sym g s (fun _ l => l) [] _ R AC (fun _ l => Permutation_refl l) (le_n _)) as (r & m & _ & H & _). destruct (H v I) as (n & _ & [(l & LF & P) _] & _). exists n, l. auto.
    - exists 0, v. split; [|constructor]. intros u J. apply NI, (narc_in sym g s v u R J). }
  intros q r a. rewrite TR. apply and_iff_compat_l, and_iff_compat_l. split; intros (r0 & J & T); exists r0; (split; [exact J|]); [apply T|]. split; [exact T|]. intros z NZ. destruct (NZ (EN z)).
Qed.
Print Assumptions C106_transitions.

(** 0 and 1 form a cycle that leads to no leaf. 5 is merged with 4, then 3 with 2; the state 6 has the transitions of 2, but another symbol. *)
Definition nca_ops : list (rop nat) :=
  [RCall (NAddVertex (Some 1)); RCall (NAddVertex (Some 1)); RCall (NAddVertex None); RCall (NAddVertex None); RCall (NAddVertex (Some 5)); RCall (NAddVertex (Some 5)); RCall (NAddVertex (Some 6));
   RCall (NAddEdge 0 1); RCall (NAddEdge 1 0); RCall (NAddEdge 2 4); RCall (NAddEdge 2 0); RCall (NAddEdge 3 5); RCall (NAddEdge 3 0); RCall (NAddEdge 6 4); RCall (NAddEdge 6 0); RSetFinal 4 true; RSetFinal 5 true].
Definition nca_g : naut nat := INA_history nca_ops.
Example nca_disciplined : ndisciplined ns_init (graph_calls nca_ops).
Proof. cbn. repeat split; auto 12. Qed.
Example nca_apart : cycles_apart (aut_arc (NA_edges nca_g)).
Proof.
  set (rank v := nth v [3; 3; 0; 0; 1; 1; 0] 0).
  assert (UP : forall u v, aut_arc (NA_edges nca_g) u v -> (rank u < rank v \/ (u < 2 /\ v < 2)) /\ (u < 2 -> v < 2)).
  { intros u v [a I]. vm_compute in I. repeat (destruct I as [I|I]; [injection I as <- <- <-; vm_compute; lia|]). destruct I. }
  assert (DEAD : forall n u v, upath (aut_arc (NA_edges nca_g)) n u v -> u < 2 -> v < 2) by (clear -UP; induction 1 as [|n u v x R P IH]; [auto|]; intros L; apply IH, (UP u v R), L).
  assert (MONO : forall n u v, upath (aut_arc (NA_edges nca_g)) n u v -> v < 2 \/ rank u + n <= rank v).
  { clear -UP DEAD. induction 1 as [|n u v x R P IH]; [right; lia|]. destruct (UP u v R) as [[L|[_ L]] _]; [lia|]. left. apply (DEAD n v x P L). }
  assert (OUT : forall v, v < 2 -> exists u, aut_arc (NA_edges nca_g) v u).
  { intros [|[|v]] L; [exists 1, (Some 1)|exists 0, (Some 1)|lia]; vm_compute; tauto. }
  clearbody rank. intros n v C (m & l & LF & P). destruct (MONO _ _ _ C) as [L|L]; [|lia]. destruct (OUT l (DEAD m v l P L)) as [u J]. apply (LF u J).
Qed.
Example C121_node_example : match node_revuz_minimize 7 id_ord id_ord [] nca_g with
  | Some (g', Ok h) => NA_vertices g' = [0; 1; 2; 4; 6] /\ NA_edges g' = [Edge 0 1 (Some 1); Edge 1 0 (Some 1); Edge 2 4 (Some 5); Edge 2 0 (Some 1); Edge 6 4 (Some 5); Edge 6 0 (Some 1)] /\ h = 1%Z
  | _ => False
  end.
Proof. vm_compute. auto. Qed.
Example C121_node_example_applies : exists g' h, node_revuz_minimize 7 id_ord id_ord [] nca_g = Some (g', Ok h) /\ ~ ntwins nca_g 2 6.
Proof.
  pose proof (C121_revuz_node nat _ nca_ops 7 id_ord id_ord nca_disciplined (id_ord_valid _) (id_ord_valid _)) as TH. assert (EG : INA_history nca_ops = nca_g) by (unfold nca_g; reflexivity). cbv zeta in TH. rewrite EG in TH. destruct (TH nca_apart) as (g' & h & E & _ & K1 & _); [vm_compute; lia|].
  exists g', h. split; [exact E|]. assert (EV : NA_vertices g' = [0; 1; 2; 4; 6]) by (pose proof C121_node_example as M; rewrite E in M; apply M). apply (proj1 (K1 6)); [rewrite EV; cbn; tauto|vm_compute; tauto|lia].
Qed.
