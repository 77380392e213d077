(** Theorem C121 on revuz_minimize.py: graphs with cycles. *)
From Coq Require Import ZArith.
From Verif Require Import Graph GraphProofs Automaton AutomatonSpec AutomatonProofs AutomatonProofs2 AutomatonProofs3 NodeAut NodeAutSpec NodeAutProofs Heap Revuz RevuzSpec RevuzProofs RevuzProofs2 RevuzProofs3 TRevuz RevuzNode RevuzNodeSpec RevuzNodeProofs TRevuzNode RevuzCycleSpec RevuzCycleProofs RevuzCycleProofs2 Base BaseProofs.

(** C121 on any finite graph: revuz_height runs forever when a vertex of a cycle leads to a leaf. Otherwise it ends, sets the heights of the vertices that lead to a leaf and only these,
    and returns the greatest one. *)
Theorem C121_revuz_height (D : Type) (V : list nat) (out_degree : nat -> nat) (in_edges : nat -> list (edge D)) (arc : nat -> nat -> Prop) ord m0 fuel :
  NoDup V -> (forall v u, In v V -> (exists e, In e (in_edges v) /\ source e = u) <-> arc u v) -> (forall v, In v V -> (out_degree v = 0 <-> leaf arc v)) ->
  (forall u v, arc u v -> In u V /\ In v V) -> valid_order ord ->
  ((exists n v, upath arc (S n) v v /\ ends arc v) -> revuz_height V out_degree in_edges fuel ord [] m0 = None) /\
  (cycles_apart arc -> length V <= fuel -> exists r m, revuz_height V out_degree in_edges fuel ord [] m0 = Some (r, m) /\
    (forall v, In v V -> ends arc v -> exists n, dget m v = Some n /\ height_is arc v n /\ (Z.of_nat n <= r)%Z) /\
    (forall v, ~ (In v V /\ ends arc v) -> dget m v = dget m0 v) /\
    ((r = (-1)%Z /\ forall v, In v V -> ~ ends arc v) \/ exists v n, In v V /\ height_is arc v n /\ r = Z.of_nat n)).
Proof.
  intros N H1 H2 H3 O. destruct (height_cycles V out_degree in_edges arc H1 H2 H3 ord m0 fuel O N) as [C1 C2]. split; [exact C1|]. intros CA F. destruct (C2 CA F) as (r & m & E & K1 & K2). exists r, m. split; [exact E|]. split; [|split; [|exact K2]].
  - intros v Vv EN. destruct (K1 v) as [[_ K]|[K _]]; [exact K|]. destruct K. auto.
  - intros v NE. destruct (K1 v) as [(Vv & n & _ & [(l & LF & P) _] & _)|[_ K]]; [|exact K]. destruct NE. split; [exact Vv|]. exists n, l. auto.
Qed.
Print Assumptions C121_revuz_height.

Section A.
  Context {A : Type} {EA : EqDec A}.
  Lemma rep_height (g : iaut A) s ord m0 fuel : iarep g s -> valid_order ord ->
    let arc := aut_arc (IA_edges g) in let height := revuz_height (IA_vertices g) (fun q => length (IA_out_edges g q)) (IA_in_edges g) fuel ord [] m0 in
    ((exists n v, upath arc (S n) v v /\ ends arc v) -> height = None) /\
    (cycles_apart arc -> length (IA_vertices g) <= fuel -> exists r m, height = Some (r, m) /\
      (forall v, (In v (IA_vertices g) /\ exists n, dget m v = Some n /\ height_is arc v n /\ (Z.of_nat n <= r)%Z) \/ (~ (In v (IA_vertices g) /\ ends arc v) /\ dget m v = dget m0 v)) /\
      ((r = (-1)%Z /\ forall v, In v (IA_vertices g) -> ~ ends arc v) \/ exists v n, In v (IA_vertices g) /\ height_is arc v n /\ r = Z.of_nat n)).
  Proof.
    intros R O. apply height_cycles; auto.
    - intros v u _. apply (in_arc g s v u R).
    - intros v _. apply (out0 g s v R).
    - intros u v. apply (arc_in g s u v R).
    - unfold IA_vertices. rewrite (obs_vertices _ _ (proj1 R)). apply (iarep_nodup g s R).
  Qed.

  (** When a state of a cycle leads to a leaf, revuz_minimize never ends, whatever the parameter leaves. *)
  Theorem C121_never_ends n (ops : list (aop A)) fuel ord ord_v leaves : disciplined (aa_init n) ops -> valid_order ord_v ->
    let g := fst (runs IA_call (IA_init n) ops) in
    (exists k v, upath (aut_arc (IA_edges g)) (S k) v v /\ ends (aut_arc (IA_edges g)) v) -> revuz_minimize fuel ord ord_v leaves g = None.
  Proof.
    intros D OV g C. destruct (iarep_runs ops _ _ (iarep_init n) D) as [R _]. fold g in R. unfold revuz_minimize. rewrite (proj1 (rep_height g _ ord_v [] fuel R OV) C). reflexivity.
  Qed.

  Lemma path_cons (T : list (edge A)) q r a w z : (forall r', In (Edge q r' a) T -> r' = r) -> In (Edge q r a) T -> path T q (a :: w) z <-> path T r w z.
  Proof. intros U I. split; [intros P; inversion P as [|? ? r' ? ? J P']; subst; rewrite (U r' J) in P'; exact P'|intros P; econstructor; eassumption]. Qed.
  Lemma path_rep (g : iaut A) s q w z : iarep g s -> path (IA_edges g) q w z <-> path (aa_T s) q w z.
  Proof. intros R. split; apply path_perm; intros e; rewrite (edges_iff g s R); tauto. Qed.
  Lemma path_arc (T : list (edge A)) q w r : path T q w r -> exists n, upath (aut_arc T) n q r.
  Proof. induction 1 as [|q a x w t I P [n IH]]; [exists 0; constructor|]. exists (S n). econstructor; [exists a; exact I|exact IH]. Qed.

  Lemma ends_uniq ht B s0 h (g : iaut A) s : (forall v, ht v <= B) -> iarep g s -> cinv ht B s0 h [] s -> forall n x y, ht x < n \/ ht x = B -> In x (aa_V s) -> In y (aa_V s) -> same_ends ht B s s x y -> x = y.
  Proof.
    intros HB R I. pose proof (iarep_det g s R) as DET. pose proof (iarep_closed g s R) as CL.
    assert (DEAD : forall x y, ht x = B -> same_ends ht B s s x y -> x = y).
    { intros x y Hx [_ K]. pose proof (proj1 (K x Hx []) ltac:(constructor)) as P. inversion P. reflexivity. }
    induction n as [|n IH]; intros x y L Vx Vy SE; [destruct L as [L|L]; [lia|apply (DEAD x y L SE)]|].
    destruct (Nat.eq_dec (ht x) B) as [E|NE]; [apply (DEAD x y E SE)|]. pose proof (HB x) as LB.
    assert (NX : forall p q a r r', same_ends ht B s s p q -> In (Edge p r a) (aa_T s) -> In (Edge q r' a) (aa_T s) -> same_ends ht B s s r r').
    { intros p q a r r' [S1 K1] J J'. split.
      - intros w. destruct (S1 (a :: w)) as [S2 S3]. rewrite (right_cons _ _ p r), (right_cons _ _ q r') in S2 by (eauto using DET). rewrite (readable_cons _ p r), (readable_cons _ q r') in S3 by (eauto using DET). tauto.
      - intros z Hz w. specialize (K1 z Hz (a :: w)). rewrite (path_cons _ p r), (path_cons _ q r') in K1 by (eauto using DET). exact K1. }
    assert (ST : forall p q a r, same_ends ht B s s p q -> In (Edge p r a) (aa_T s) -> exists r', In (Edge q r' a) (aa_T s)).
    { intros p q a r [S1 _] J. destruct (S1 [a]) as [_ [S2 _]]. destruct S2 as [t P]; [exists r; econstructor; [exact J|constructor]|]. inversion P as [|? ? r' ? ? J' P']; subst. exists r'. exact J'. }
    apply (c_uniq _ _ _ _ _ _ I x y Vx Vy).
    - apply (clevel_empty ht B s0 h s I); [intros p r a J; apply (CL _ _ _ J)|exact Vx|lia].
    - split.
      + destruct SE as [SW _]. destruct (SW []) as [F _]. rewrite !right_nil in F. destruct (aa_final s x), (aa_final s y); try reflexivity; [symmetry|]; tauto.
      + intros a r. split; intros J.
        * destruct (ST x y a r SE J) as [r' J']. assert (r = r') as <-; [|exact J']. apply IH; [pose proof (c_down _ _ _ _ _ _ I _ _ _ J); lia|apply (CL _ _ _ J)|apply (CL _ _ _ J')|apply (NX x y a); assumption].
        * destruct (ST y x a r (ends_sym _ _ _ _ _ _ SE) J) as [r' J']. assert (r' = r) as <-; [|exact J']. apply IH; [pose proof (c_down _ _ _ _ _ _ I _ _ _ J'); lia|apply (CL _ _ _ J')|apply (CL _ _ _ J)|apply (NX x y a); assumption].
  Qed.

  Lemma revuz_rep (g : iaut A) s fuel ord ord_v : iarep g s -> valid_order ord -> valid_order ord_v ->
    let arc := aut_arc (IA_edges g) in
    cycles_apart arc -> length (IA_vertices g) <= fuel ->
    exists g' h s', (iarep g' s' /\ cycles_apart (aut_arc (IA_edges g')) /\ (forall z, In z (IA_vertices g) -> ~ ends arc z -> ~ ends (aut_arc (IA_edges g')) z) /\
        (forall q z w, In q (IA_vertices g') -> ~ ends arc z -> path (IA_edges g) q w z <-> path (IA_edges g') q w z) /\
        (forall q k, In q (IA_vertices g') -> height_is arc q k <-> height_is (aut_arc (IA_edges g')) q k) /\ (forall q k, In q (IA_vertices g) -> height_is arc q k -> exists q', In q' (IA_vertices g') /\ height_is arc q' k)) /\
      revuz_minimize fuel ord ord_v [] g = Some (g', Ok h) /\ A_initial (ia_base g') = A_initial (ia_base g) /\
      (forall q, In q (IA_vertices g') <-> In q (IA_vertices g) /\ forall q', In q' (IA_vertices g) -> q' < q -> ~ twins g q' q) /\
      (forall q, In q (IA_vertices g) -> exists q', In q' (IA_vertices g') /\ q' <= q /\ twins g q' q) /\
      (forall q, In q (IA_vertices g') -> forall w, (accepted g' q w <-> accepted g q w) /\ (readable (IA_edges g') q w <-> readable (IA_edges g) q w)) /\
      (forall q, In q (IA_vertices g) -> ~ ends arc q -> In q (IA_vertices g') /\ forall r a, In (Edge q r a) (IA_edges g') <-> In (Edge q r a) (IA_edges g)) /\
      (forall i, A_initial (ia_base g) = Some i -> In i (IA_vertices g') -> forall w, A_accepts (ia_base g') w = A_accepts (ia_base g) w) /\
      (forall i, A_initial (ia_base g) = Some i -> ~ In i (IA_vertices g') -> forall w, A_accepts (ia_base g') w = match w with [] => A_is_final (ia_base g) i | _ => false end) /\
      ((h = (-1)%Z /\ forall v, In v (IA_vertices g) -> ~ ends arc v) \/
        exists v k, In v (IA_vertices g) /\ height_is arc v k /\ h = Z.of_nat k /\ forall u m, In u (IA_vertices g) -> height_is arc u m -> m <= k) /\
      (forall q, A_is_final (ia_base g') q = A_is_final (ia_base g) q) /\
      (forall q r a, In (Edge q r a) (IA_edges g') <-> In q (IA_vertices g') /\ In r (IA_vertices g') /\ exists r0, In (Edge q r0 a) (IA_edges g) /\ twins g r r0).
  Proof.
    intros R OE OV arc CA F.
    destruct (proj2 (rep_height g s ord_v [] fuel R OV) CA F) as (r & m & E & HT & _). fold arc in HT. unfold revuz_minimize. rewrite E. clear E.
    assert (EV : IA_vertices g = aa_V s) by apply (obs_vertices _ _ (proj1 R)). rewrite EV in HT.
    assert (AI : forall u v, arc u v -> In u (aa_V s) /\ In v (aa_V s)) by (intros u v J; rewrite <- EV; apply (arc_in g s u v R J)).
    pose (B := length (aa_V s)). pose (ht := fun v => match dget m v with Some k => k | None => B end).
    assert (CASE : forall v, (ht v < B /\ dget m v = Some (ht v) /\ In v (aa_V s) /\ height_is arc v (ht v)) \/ (ht v = B /\ dget m v = None /\ ~ (In v (aa_V s) /\ ends arc v))).
    { intros v. unfold ht. destruct (HT v) as [(Vv & k & G & HK & _)|[NE G]]; rewrite G; [left|right; auto]. split; [|auto]. destruct HK as [(l & LF & P) _]. apply (leaf_path_short (aa_V s) arc AI k v CA). split; [exact Vv|]. exists l. auto. }
    assert (LIVE : forall v, ht v < B -> In v (aa_V s) /\ height_is arc v (ht v)) by (intros v L; destruct (CASE v) as [?|[? _]]; [tauto|lia]).
    assert (DEAD : forall v, In v (aa_V s) -> ~ ends arc v <-> ht v = B).
    { intros v Vv. destruct (CASE v) as [(L & _ & _ & [(l & LF & P) _])|(Eb & _ & NE)]; [split; [intros N; destruct N; exists (ht v), l; auto|lia]|]. split; [auto|]. intros _ EN. apply NE. auto. }
    assert (ENDL : forall v, In v (aa_V s) -> ends arc v -> ht v < B).
    { intros v Vv EN. destruct (CASE v) as [[L _]|(_ & _ & NE)]; [exact L|]. destruct NE. auto. }
    assert (HB : forall v, ht v <= B) by (intros v; destruct (CASE v) as [[? _]|[? _]]; lia).
    assert (HH : forall v, ht v < B -> height_of m v = ht v) by (intros v L; destruct (CASE v) as [(_ & G & _)|[? _]]; [unfold height_of; rewrite G; reflexivity|lia]).
    assert (ARC : forall p q a, In (Edge p q a) (aa_T s) -> arc p q) by (intros p q a J; exists a; apply (edges_iff g s R), J).
    assert (I0 : cinv ht B s 0 (leaves_of (IA_vertices g) (fun q => length (IA_out_edges g q)) []) s).
    { split; try reflexivity; auto.
      - lia.
      - intros v _. apply ends_refl.
      - intros p x a J. destruct (AI _ _ (ARC _ _ _ J)) as [Vp Vx]. destruct (CASE x) as [(Lx & _ & _ & [(l & L & P) _])|[Ex _]]; [left|auto].
        assert (EP : ends arc p) by (exists (S (ht x)), l; split; [exact L|]; econstructor; [apply (ARC _ _ _ J)|exact P]). pose proof (ENDL p Vp EP) as LP. destruct (LIVE p LP) as [_ [_ MX]]. split; [|exact LP].
        apply (MX (S (ht x)) l L). econstructor; [apply (ARC _ _ _ J)|exact P].
      - intros p k Vp Hp LP. destruct (LIVE p LP) as [_ [(l & L & P) MX]]. rewrite Hp in *. apply upath_first in P; [|exact L]. destruct P as (u & [a J] & P). apply (edges_iff g s R) in J. destruct (AI _ _ (ARC _ _ _ J)) as [_ Vu]. exists u, a. split; [exact J|].
        assert (LU : ht u < B) by (apply (ENDL u Vu); exists k, l; auto). destruct (LIVE u LU) as [_ [(l' & L' & P') MX']]. pose proof (MX' k l L P). specialize (MX (S (ht u)) l' L'). assert (S (ht u) <= S k); [|lia]. apply MX. econstructor; [apply (ARC _ _ _ J)|exact P'].
      - intros p x a J LP H0. destruct (LIVE p LP) as [_ [(l & L & P) _]]. rewrite H0 in P. apply upath_first in P; [|exact L]. subst l. apply (L x), (ARC _ _ _ J).
      - intros p Vp Hp. apply (DEAD p Vp) in Hp. destruct (IA_out_edges g p) as [|[p' x a] es] eqn:EO.
        + destruct Hp. exists 0, p. split; [|constructor]. apply (out0 g s p R). rewrite EO. reflexivity.
        + assert (J : In (Edge p' x a) (IA_out_edges g p)) by (rewrite EO; left; reflexivity). apply (In_obs_out g s p _ R) in J. destruct J as [J1 J2]. cbn in J1. subst p'. exists x, a. exact J2.
      - intros p _. split; [auto|tauto].
      - cbn [leaves_of]. rewrite EV. split; [apply NoDup_filter, (iarep_nodup g s R)|]. intros v. rewrite filter_In, Nat.eqb_eq, (out0 g s v R). fold arc. split.
        + intros [Vv L]. split; [exact Vv|]. assert (LV : ht v < B) by (apply (ENDL v Vv); exists 0, v; split; [exact L|constructor]). split; [|lia]. destruct (LIVE v LV) as [_ [(l & L' & P) _]]. destruct (ht v) as [|k]; [reflexivity|]. apply upath_first in P; [|exact L']. destruct P as (u & J & _). destruct (L u J).
        + intros (Vv & H0 & L0). split; [exact Vv|]. destruct (LIVE v ltac:(lia)) as [_ [(l & L' & P) _]]. rewrite H0 in P. apply upath_first in P; [|exact L']. subst l. exact L'.
      - intros; lia.
      - intros v Vv NV. contradiction. }
    destruct (cminimize_loop ht B m HH HB ord ord_v s OE OV fuel 0 _ g s R I0) as (g' & s' & h' & E & R' & I' & _ & K); [unfold B; rewrite <- EV; lia|].
    assert (STABLE : cycles_apart (aut_arc (IA_edges g')) /\ (forall z, In z (aa_V s) -> ~ ends arc z -> ~ ends (aut_arc (IA_edges g')) z) /\ (forall q z w, In q (aa_V s') -> ~ ends arc z -> path (IA_edges g) q w z <-> path (IA_edges g') q w z) /\
      (forall q k, In q (aa_V s') -> height_is arc q k <-> height_is (aut_arc (IA_edges g')) q k) /\ (forall q k, In q (aa_V s) -> height_is arc q k -> exists q', In q' (aa_V s') /\ height_is arc q' k)).
    { set (arc' := aut_arc (IA_edges g')). assert (A1 : forall u v, arc' u v -> exists a, In (Edge u v a) (aa_T s')) by (intros u v [a J]; exists a; apply (edges_iff g' s' R'), J).
      assert (A2 : forall u v a, In (Edge u v a) (aa_T s') -> arc' u v) by (intros u v a J; exists a; apply (edges_iff g' s' R'), J).
      assert (DOUT : forall n u v, upath arc' n u v -> ht u = B -> ht v = B).
      { induction 1 as [|n u v x J P IH]; [auto|]. intros Hu. apply IH. destruct (A1 _ _ J) as [a J']. pose proof (c_down _ _ _ _ _ _ I' _ _ _ J'). lia. }
      assert (MONO : forall n u v, upath arc' n u v -> ht v = B \/ ht v + n <= ht u).
      { induction 1 as [|n u v x J P IH]; [right; lia|]. destruct (A1 _ _ J) as [a J']. destruct (c_down _ _ _ _ _ _ I' _ _ _ J') as [D|D]; [|left; apply (DOUT _ _ _ P D)]. destruct IH as [IH|IH]; [auto|]. right. lia. }
      assert (PIN : forall n u v, upath arc' n u v -> In u (aa_V s') -> In v (aa_V s')).
      { induction 1 as [|n u v x J P IH]; [auto|]. intros _. apply IH. destruct (A1 _ _ J) as [a J']. apply (iarep_closed g' s' R' _ _ _ J'). }
      assert (NOLEAF : forall v, In v (aa_V s') -> ht v = B -> ~ leaf arc' v) by (intros v Vv Hv LF; destruct (c_loop _ _ _ _ _ _ I' v Vv Hv) as (x & a & J); apply (LF x), (A2 _ _ a), J).
      assert (DEAD' : forall v, In v (aa_V s') -> ht v = B -> ~ ends arc' v) by (intros v Vv Hv (k & l & LF & P); apply (NOLEAF l (PIN _ _ _ P Vv) (DOUT _ _ _ P Hv) LF)).
      assert (HTK : forall v k, In v (aa_V s) -> height_is arc v k -> ht v < B /\ k = ht v).
      { intros v k Vv [(l & LF & P) MX]. assert (LV : ht v < B) by (apply (ENDL v Vv); exists k, l; auto). split; [exact LV|]. destruct (LIVE v LV) as [_ [(l' & LF' & P') MX']]. specialize (MX _ _ LF' P'). specialize (MX' _ _ LF P). lia. }
      assert (HUP : forall q k, In q (aa_V s') -> height_is arc q k -> height_is arc' q k).
      { intros q k Vq HK. destruct (HTK q k (c_V _ _ _ _ _ _ I' q Vq) HK) as [LQ ->]. split.
        + clear HK. remember (ht q) as k eqn:Ek. revert q Vq Ek. induction k as [|k IH]; intros q Vq Ek.
          * exists q. split; [|constructor]. intros u J. destruct (A1 _ _ J) as [a J']. apply (c_leaf _ _ _ _ _ _ I' _ _ _ J'); lia.
          * destruct (c_next _ _ _ _ _ _ I' q k Vq ltac:(lia) ltac:(lia)) as (x & a & J & Hx). destruct (IH ltac:(lia) x (proj2 (iarep_closed g' s' R' _ _ _ J)) ltac:(lia)) as (l & LF & P). exists l. split; [exact LF|]. econstructor; [apply (A2 _ _ _ J)|exact P].
        + intros n l LF P. destruct (MONO _ _ _ P) as [Hl|]; [|lia]. destruct (NOLEAF l (PIN _ _ _ P Vq) Hl LF). }
      split; [|split; [|split; [|split]]].
      - intros n v C. assert (Vv : In v (aa_V s')) by (inversion C as [|? ? x ? J P]; subst; destruct (A1 _ _ J) as [a J']; apply (iarep_closed g' s' R' _ _ _ J')). apply (DEAD' v Vv). destruct (MONO _ _ _ C); [assumption|lia].
      - intros z Vz NE. apply (DEAD z Vz) in NE. apply DEAD'; [|exact NE]. apply (c_frozen _ _ _ _ _ _ I' z NE), Vz.
      - intros q z w Vq NE. assert (Vz : In z (aa_V s)). { destruct (in_dec Nat.eq_dec z (aa_V s)) as [|NV]; [assumption|]. destruct NE. exists 0, z. split; [|constructor]. intros u J. apply NV, (AI _ _ J). }
        rewrite (path_rep g s _ w z R), (path_rep g' s' _ w z R'). apply (c_same _ _ _ _ _ _ I' q Vq). apply (DEAD z Vz), NE.
      - intros q k Vq. split; [apply HUP, Vq|]. intros HK. destruct (Nat.eq_dec (ht q) B) as [HD|HD]; [destruct (DEAD' q Vq HD); destruct HK as [(l & LF & P) _]; exists k, l; auto|].
        assert (LQ : ht q < B) by (pose proof (HB q); lia). assert (HA := proj2 (LIVE q LQ)). destruct (HUP q (ht q) Vq HA) as [(l & LF & P) MX], HK as [(l' & LF' & P') MX']. specialize (MX _ _ LF' P'). specialize (MX' _ _ LF P). replace k with (ht q) by lia. exact HA.
      - intros q k Vq HK. destruct (HTK q k Vq HK) as [LQ ->]. destruct (in_dec Nat.eq_dec q (aa_V s')) as [V'|NV]; [exists q; auto|]. destruct (c_removed _ _ _ _ _ _ I' q Vq NV) as (q' & V' & [_ Hq] & _). exists q'. split; [exact V'|]. rewrite <- Hq. apply LIVE. lia. }
    exists g', (Z.of_nat h' - 1)%Z, s'. split; [split; [exact R'|]; rewrite EV; change (IA_vertices g') with (A_vertices (ia_base g')); rewrite (obs_vertices _ _ (proj1 R')); exact STABLE|]. clear STABLE. split; [exact E|].
    assert (EV' : IA_vertices g' = aa_V s') by apply (obs_vertices _ _ (proj1 R')).
    assert (Q0 : A_initial (ia_base g') = A_initial (ia_base g)).
    { assert (Q1 : A_initial (ia_base g) = aa_q0 s) by apply R. assert (Q2 : A_initial (ia_base g') = aa_q0 s') by apply R'. rewrite Q1, Q2. apply (c_q0 _ _ _ _ _ _ I'). }
    assert (ACC : forall q, In q (aa_V s') -> forall w, (accepted g' q w <-> accepted g q w) /\ (readable (IA_edges g') q w <-> readable (IA_edges g) q w)).
    { intros q Vq w. rewrite (right_rep g' s' q w R'), (right_rep g s q w R), (readable_rep g' s' q w R'), (readable_rep g s q w R). destruct (proj1 (c_same _ _ _ _ _ _ I' q Vq) w). split; symmetry; assumption. }
    assert (PV : forall q w z, path (aa_T s) q w z -> In q (aa_V s) -> In z (aa_V s)) by (intros q w z P; induction P; [auto|]; intros _; apply IHP, (iarep_closed g s R _ _ _ H)).
    assert (TW : forall x y, In x (aa_V s) -> In y (aa_V s) -> twins g x y <-> same_ends ht B s s x y).
    { intros x y Vx Vy. unfold twins, same_ends. fold arc. split; intros [H1 H2]; split.
      - intros w. rewrite <- !(right_rep g s _ w R), <- !(readable_rep g s _ w R). apply H1.
      - intros z Hz w. destruct (in_dec Nat.eq_dec z (aa_V s)) as [Vz|NV]; [|split; intros P; destruct NV; eapply PV; eassumption]. rewrite <- !(path_rep g s _ w z R). apply H2, (DEAD z Vz), Hz.
      - intros w. rewrite !(right_rep g s _ w R), !(readable_rep g s _ w R). apply H1.
      - intros z Hz w. rewrite !(path_rep g s _ w z R). destruct (in_dec Nat.eq_dec z (aa_V s)) as [Vz|NV]; [|split; intros P; destruct NV; eapply PV; eassumption]. apply H2, (DEAD z Vz), Hz. }
    assert (MIN : forall x y, In x (aa_V s') -> In y (aa_V s') -> same_ends ht B s s x y -> x = y).
    { intros x y Vx Vy SE. apply (ends_uniq ht B s h' g' s' HB R' I' (S (ht x)) x y); [lia|assumption..|]. apply (ends_trans _ _ _ s _ _ x); [apply ends_sym, (c_same _ _ _ _ _ _ I' x Vx)|]. apply (ends_trans _ _ _ s _ _ y); [exact SE|apply (c_same _ _ _ _ _ _ I' y Vy)]. }
    assert (REP : forall q, In q (aa_V s) -> exists q', In q' (aa_V s') /\ (q' = q \/ q' < q) /\ same_ends ht B s s q' q).
    { intros q Vq. destruct (in_dec Nat.eq_dec q (aa_V s')) as [V'|NV]; [exists q; split; [exact V'|]; split; [auto|apply ends_refl]|]. destruct (c_removed _ _ _ _ _ _ I' q Vq NV) as (q' & V' & [L' _] & SW). exists q'. auto. }
    split; [exact Q0|]. rewrite EV, EV'. split; [|split; [|split; [|split; [|split; [|split; [|split; [|split]]]]]]].
    - intros q. split.
      + intros Vq. pose proof (c_V _ _ _ _ _ _ I' q Vq) as Vs. split; [exact Vs|]. intros q' V' L' T. apply (TW q' q V' Vs) in T. destruct (REP q' V') as (q2 & V2 & L2 & S2). assert (q2 = q); [|lia]. apply MIN; [exact V2|exact Vq|]. apply (ends_trans _ _ _ s _ _ q'); assumption.
      + intros [Vq H]. destruct (REP q Vq) as (q' & V' & [->|L'] & S'); [exact V'|]. pose proof (c_V _ _ _ _ _ _ I' q' V') as Vs. destruct (H q' Vs L'). apply (TW q' q Vs Vq), S'.
    - intros q Vq. destruct (REP q Vq) as (q' & V' & L' & S'). exists q'. split; [exact V'|]. split; [lia|]. apply (TW q' q (c_V _ _ _ _ _ _ I' q' V') Vq), S'.
    - exact ACC.
    - intros q Vq NE. apply (DEAD q Vq) in NE. destruct (c_frozen _ _ _ _ _ _ I' q NE) as [F1 F2]. split; [apply F1, Vq|]. intros x a. rewrite (edges_iff g' s' R'), (edges_iff g s R). apply F2.
    - intros i Ei Vi w. apply eq_iff_eq_true. rewrite (accepts_path _ _ (proj1 R')), (accepts_path _ _ (proj1 R)). destruct (ACC i Vi w) as [AC _]. split; intros (i' & t & Ei' & P & FT).
      + rewrite Q0 in Ei'. assert (i' = i) as -> by congruence. destruct (proj1 AC) as (t' & P' & FT'); [exists t; auto|]. exists i, t'. auto.
      + assert (i' = i) as -> by congruence. destruct (proj2 AC) as (t' & P' & FT'); [exists t; auto|]. exists i, t'. rewrite Q0. auto.
    - assert (HF : forall q, A_is_final (ia_base g) q = aa_final s q) by apply R. intros i Ei NV w. apply eq_iff_eq_true. rewrite (accepts_path _ _ (proj1 R')). split.
      + intros (i' & t & Ei' & P & FT). rewrite Q0 in Ei'. assert (i' = i) as -> by congruence. destruct w as [|a w].
        * inversion P; subst. rewrite HF, <- (c_final _ _ _ _ _ _ I'). rewrite <- FT. symmetry. apply R'.
        * exfalso. inversion P as [|? ? x ? ? J P']; subst. apply (edges_iff g' s' R') in J. apply NV, (iarep_closed g' s' R' _ _ _ J).
      + destruct w as [|a w]; [|discriminate]. intros FT. exists i, i. rewrite Q0. split; [exact Ei|]. split; [constructor|]. rewrite HF, <- (c_final _ _ _ _ _ _ I') in FT. rewrite <- FT. apply R'.
    - assert (UB : forall v, In v (aa_V s) -> ht v < B -> ht v < h').
      { intros v Vv LV. assert (CL : forall p r a, In (Edge p r a) (aa_T s') -> In r (aa_V s')) by (intros p x a J; apply (iarep_closed g' s' R' _ _ _ J)). destruct (in_dec Nat.eq_dec v (aa_V s')) as [V'|NV]; [apply (clevel_empty ht B s h' s' I' CL v V' LV)|]. destruct (c_removed _ _ _ _ _ _ I' v Vv NV) as (q & Vq & [_ Eq] & _). rewrite <- Eq in *. apply (clevel_empty ht B s h' s' I' CL q Vq LV). }
      destruct h' as [|h'].
      + left. split; [reflexivity|]. intros v Vv EN. specialize (UB v Vv (ENDL v Vv EN)). lia.
      + right. destruct (K h' ltac:(lia)) as (v & Vv & Hv). pose proof (c_h _ _ _ _ _ _ I') as LB. exists v, h'. split; [exact Vv|]. split; [rewrite <- Hv; apply LIVE; lia|]. split; [lia|]. intros u k Vu HK.
        destruct HK as [(l & L & P) _]. assert (LU : ht u < B) by (apply (ENDL u Vu); exists k, l; auto). pose proof (UB u Vu LU). pose proof (proj2 (proj2 (LIVE u LU)) k l L P). lia.
    - intros q. assert (H1 : A_is_final (ia_base g) q = aa_final s q) by apply R. assert (H2 : A_is_final (ia_base g') q = aa_final s' q) by apply R'. rewrite H1, H2, (c_final _ _ _ _ _ _ I'). reflexivity.
    - rename r into hgt. pose proof (iarep_det g s R) as DET. pose proof (iarep_closed g s R) as CLO. pose proof (iarep_det g' s' R') as DET'. pose proof (iarep_closed g' s' R') as CLO'.
      assert (NX : forall q a r r0, In q (aa_V s') -> In (Edge q r a) (aa_T s') -> In (Edge q r0 a) (aa_T s) -> same_ends ht B s s r r0).
      { intros q a r r0 Vq J J0. destruct (c_same _ _ _ _ _ _ I' q Vq) as [S1 K1]. apply (ends_trans _ _ _ s' _ _ r); [apply (c_same _ _ _ _ _ _ I' r), (CLO' _ _ _ J)|]. apply ends_sym. split.
        - intros w. destruct (S1 (a :: w)) as [S2 S3]. rewrite (right_cons _ _ q r0), (right_cons _ _ q r) in S2 by eauto using DET, DET'. rewrite (readable_cons _ q r0), (readable_cons _ q r) in S3 by eauto using DET, DET'. split; assumption.
        - intros z Hz w. specialize (K1 z Hz (a :: w)). rewrite (path_cons _ q r0), (path_cons _ q r) in K1 by eauto using DET, DET'. exact K1. }
      intros q r a. rewrite (edges_iff g' s' R'). split.
      + intros J. destruct (CLO' _ _ _ J) as [Vq Vr]. split; [exact Vq|]. split; [exact Vr|]. destruct (c_same _ _ _ _ _ _ I' q Vq) as [S1 _]. destruct (S1 [a]) as [_ [_ S2]]. destruct S2 as [t P]; [exists r; econstructor; [exact J|constructor]|].
        inversion P as [|? ? r0 ? ? J0 _]; subst. exists r0. split; [apply (edges_iff g s R), J0|]. apply TW; [apply (c_V _ _ _ _ _ _ I' r Vr)|apply (CLO _ _ _ J0)|]. apply (NX q a); assumption.
      + intros (Vq & Vr & r0 & J0 & T). apply (edges_iff g s R) in J0. destruct (c_same _ _ _ _ _ _ I' q Vq) as [S1 _]. destruct (S1 [a]) as [_ [S2 _]]. destruct S2 as [t P]; [exists r0; econstructor; [exact J0|constructor]|].
        inversion P as [|? ? r1 ? ? J1 _]; subst. assert (r1 = r) as <-; [|exact J1]. apply MIN; [apply (CLO' _ _ _ J1)|exact Vr|]. apply (ends_trans _ _ _ s _ _ r0); [apply (NX q a); assumption|]. apply ends_sym. apply TW in T; [exact T|apply (c_V _ _ _ _ _ _ I' r Vr)|apply (CLO _ _ _ J0)].
  Qed.
  (** When no cycle leads to a leaf, revuz_minimize ends. The states that remain are those without a smaller twin. A state that leads to no leaf remains with its transitions. *)
  Theorem C121_revuz_minimize n (ops : list (aop A)) fuel ord ord_v : disciplined (aa_init n) ops -> valid_order ord -> valid_order ord_v ->
    let g := fst (runs IA_call (IA_init n) ops) in let arc := aut_arc (IA_edges g) in
    cycles_apart arc -> length (IA_vertices g) <= fuel ->
    exists g' h, revuz_minimize fuel ord ord_v [] g = Some (g', Ok h) /\ A_initial (ia_base g') = A_initial (ia_base g) /\
      (forall q, In q (IA_vertices g') <-> In q (IA_vertices g) /\ forall q', In q' (IA_vertices g) -> q' < q -> ~ twins g q' q) /\
      (forall q, In q (IA_vertices g) -> exists q', In q' (IA_vertices g') /\ q' <= q /\ twins g q' q) /\
      (forall q, In q (IA_vertices g') -> forall w, (accepted g' q w <-> accepted g q w) /\ (readable (IA_edges g') q w <-> readable (IA_edges g) q w)) /\
      (forall q, In q (IA_vertices g) -> ~ ends arc q -> In q (IA_vertices g') /\ forall r a, In (Edge q r a) (IA_edges g') <-> In (Edge q r a) (IA_edges g)) /\
      (forall i, A_initial (ia_base g) = Some i -> In i (IA_vertices g') -> forall w, A_accepts (ia_base g') w = A_accepts (ia_base g) w) /\
      (forall i, A_initial (ia_base g) = Some i -> ~ In i (IA_vertices g') -> forall w, A_accepts (ia_base g') w = match w with [] => A_is_final (ia_base g) i | _ => false end) /\
      ((h = (-1)%Z /\ forall v, In v (IA_vertices g) -> ~ ends arc v) \/
        exists v k, In v (IA_vertices g) /\ height_is arc v k /\ h = Z.of_nat k /\ forall u m, In u (IA_vertices g) -> height_is arc u m -> m <= k) /\
      (forall q, A_is_final (ia_base g') q = A_is_final (ia_base g) q) /\
      (forall q r a, In (Edge q r a) (IA_edges g') <-> In q (IA_vertices g') /\ In r (IA_vertices g') /\ exists r0, In (Edge q r0 a) (IA_edges g) /\ twins g r r0).
  Proof.
    intros D OE OV g arc CA F. destruct (iarep_runs ops _ _ (iarep_init n) D) as [R _]. destruct (revuz_rep g _ fuel ord ord_v R OE OV CA F) as (g' & h & s' & _ & H). exists g', h. exact H.
  Qed.

  (** C48: on an acyclic automaton the transitions that remain lead to the kept state of the class of their former target. *)
  Lemma acyclic_ends (g : iaut A) s v : iarep g s -> acyclic (aut_arc (IA_edges g)) -> ends (aut_arc (IA_edges g)) v.
  Proof.
    intros R AC. destruct (in_dec Nat.eq_dec v (IA_vertices g)) as [I|NI].
    - destruct (heights_of g s (fun _ l => l) [] _ R AC (fun _ l => Permutation_refl l) (le_n _)) as (r & m & _ & H & _). destruct (H v I) as (n & _ & [(l & LF & P) _] & _). exists n, l. auto.
    - exists 0, v. split; [|constructor]. intros u J. apply NI, (arc_in g s v u R J).
  Qed.
  Theorem C48_transitions n (ops : list (aop A)) fuel ord ord_v : disciplined (aa_init n) ops -> valid_order ord -> valid_order ord_v ->
    let g := fst (runs IA_call (IA_init n) ops) in
    acyclic (aut_arc (IA_edges g)) -> length (IA_vertices g) <= fuel ->
    exists g' h, revuz_minimize fuel ord ord_v [] g = Some (g', Ok h) /\ (forall q, A_is_final (ia_base g') q = A_is_final (ia_base g) q) /\
      forall q r a, In (Edge q r a) (IA_edges g') <-> In q (IA_vertices g') /\ In r (IA_vertices g') /\ exists r0, In (Edge q r0 a) (IA_edges g) /\ equiv_states g r r0.
  Proof.
    intros D OE OV g AC F. destruct (iarep_runs ops _ _ (iarep_init n) D) as [R _]. fold g in R.
    assert (CA : cycles_apart (aut_arc (IA_edges g))) by (intros k v C; destruct (AC k v C)).
    destruct (C121_revuz_minimize n ops fuel ord ord_v D OE OV CA F) as (g' & h & E & _ & _ & _ & _ & _ & _ & _ & _ & FI & TR). exists g', h. split; [exact E|]. split; [exact FI|].
    intros q r a. rewrite TR. apply and_iff_compat_l, and_iff_compat_l. split; intros (r0 & J & T); exists r0; (split; [exact J|]); [apply T|]. split; [exact T|]. intros z NZ. destruct NZ. apply (acyclic_ends g _ z R AC).
  Qed.
End A.
Print Assumptions C48_transitions.
Print Assumptions C121_never_ends.
Print Assumptions C121_revuz_minimize.

(** The class IncidenceNodeAutomaton: revuz_minimize never ends when a state of a cycle leads to a leaf. *)
Theorem C121_node_never_ends (A : Type) (EA : EqDec A) (ops : list (rop A)) fuel ord ord_v leaves : ndisciplined ns_init (graph_calls ops) -> valid_order ord_v ->
  let g := INA_history ops in
  (exists k v, upath (aut_arc (NA_edges g)) (S k) v v /\ ends (aut_arc (NA_edges g)) v) -> node_revuz_minimize fuel ord ord_v leaves g = None.
Proof.
  intros D OV g C. pose proof (history_rep ops _ _ nrep_init D) as NR. fold (INA_history ops) in NR. fold g in NR. set (s1 := fst (runs ns_step ns_init (graph_calls ops))) in NR.
  pose (sym := ns_sym s1). pose (s := AA (ns_next s1) (ns_V s1) (ns_T s1) (na_q0 g) (na_final g)).
  assert (R : narep sym g s) by (split; [unfold sym; cbn; destruct s1; exact NR|split; reflexivity]). clearbody g sym s. clear D ops NR s1.
  pose proof (narep_V sym g s R) as EV. unfold node_revuz_minimize. rewrite (proj1 (C121_revuz_height (option A) (NA_vertices g) (NA_out_degree g) (INA_in_edges g) (aut_arc (NA_edges g)) ord_v [] fuel
    ltac:(rewrite EV; apply (narep_nodup sym g s R)) (fun v u _ => nin_arc sym g s v u R) ltac:(intros v Vv; rewrite EV in Vv; apply (nout0 sym g s v R Vv)) (fun u v => narc_in sym g s u v R) OV) C). reflexivity.
Qed.
Print Assumptions C121_node_never_ends.

(** 0 -1-> 0 and 0 -2-> 1: the state 0 of a cycle leads to the leaf 1. *)
Definition cy_ops : list (aop nat) := [AAddEdge 0 0 1; AAddEdge 0 1 2].
Example cy_disciplined : disciplined (aa_init 2) cy_ops.
Proof. cbn. intuition discriminate. Qed.
Example C121_ex_never_ends : forall fuel leaves, revuz_minimize fuel id_ord id_ord leaves (fst (runs IA_call (IA_init 2) cy_ops)) = None.
Proof.
  intros fuel leaves. apply (C121_never_ends 2 cy_ops fuel id_ord id_ord leaves cy_disciplined (id_ord_valid _)). exists 0, 0. split.
  - econstructor; [exists 1; vm_compute; tauto|constructor].
  - exists 1, 1. split.
    + intros u [a I]. vm_compute in I. destruct I as [I|[I|[]]]; discriminate.
    + econstructor; [exists 2; vm_compute; tauto|constructor].
Qed.
(** The same with an IncidenceNodeAutomaton *)
Definition ncy_ops : list (rop nat) := [RCall (NAddVertex None); RCall (NAddVertex (Some 7)); RCall (NAddEdge 0 0); RCall (NAddEdge 0 1)].
Example C121_ex_node_never_ends : forall fuel, node_revuz_minimize fuel id_ord id_ord [] (INA_history ncy_ops) = None.
Proof.
  intros fuel. apply (C121_node_never_ends nat _ ncy_ops fuel id_ord id_ord []); [cbn; tauto|apply id_ord_valid|]. exists 0, 0. split.
  - econstructor; [exists None; vm_compute; tauto|constructor].
  - exists 1, 1. split.
    + intros u [a I]. vm_compute in I. destruct I as [I|[I|[]]]; discriminate.
    + econstructor; [exists (Some 7); vm_compute; tauto|constructor].
Qed.

(** 0 and 1 form a cycle that leads to no leaf. 6 is merged with 5, then 3 with 2. The same words are accepted and can be read from 2 and 4, but 9 leads to 0 from 2 and to 1 from 4: both remain. *)
Definition ca_ops : list (aop nat) :=
  [AAddEdge 0 1 1; AAddEdge 1 0 1; AAddEdge 2 5 5; AAddEdge 2 0 9; AAddEdge 3 6 5; AAddEdge 3 0 9; AAddEdge 4 6 5; AAddEdge 4 1 9; ASetFinal 5 true; ASetFinal 6 true].
Definition ca_g : iaut nat := fst (runs IA_call (IA_init 7) ca_ops).
Example ca_disciplined : disciplined (aa_init 7) ca_ops.
Proof. cbn. intuition discriminate. Qed.
Example ca_apart : cycles_apart (aut_arc (IA_edges ca_g)).
Proof.
  set (rank v := nth v [3; 3; 0; 0; 0; 1; 1] 0).
  assert (UP : forall u v, aut_arc (IA_edges ca_g) u v -> (rank u < rank v \/ (u < 2 /\ v < 2)) /\ (u < 2 -> v < 2)).
  { intros u v [a I]. vm_compute in I. repeat (destruct I as [I|I]; [injection I as <- <- <-; vm_compute; lia|]). destruct I. }
  assert (DEAD : forall n u v, upath (aut_arc (IA_edges ca_g)) n u v -> u < 2 -> v < 2) by (clear -UP; induction 1 as [|n u v x R P IH]; [auto|]; intros L; apply IH, (UP u v R), L).
  assert (MONO : forall n u v, upath (aut_arc (IA_edges ca_g)) n u v -> v < 2 \/ rank u + n <= rank v).
  { clear -UP DEAD. induction 1 as [|n u v x R P IH]; [right; lia|]. destruct (UP u v R) as [[L|[_ L]] _]; [lia|]. left. apply (DEAD n v x P L). }
  assert (OUT : forall v, v < 2 -> exists u, aut_arc (IA_edges ca_g) v u).
  { intros [|[|v]] L; [exists 1, 1|exists 0, 1|lia]; vm_compute; tauto. }
  clearbody rank. intros n v C (m & l & LF & P). destruct (MONO _ _ _ C) as [L|L]; [|lia]. destruct (OUT l (DEAD m v l P L)) as [u J]. apply (LF u J).
Qed.
Example C121_example : match revuz_minimize 7 id_ord id_ord [] ca_g with
  | Some (g', Ok h) => IA_vertices g' = [0; 1; 2; 4; 5] /\ IA_edges g' = [Edge 0 1 1; Edge 1 0 1; Edge 2 5 5; Edge 2 0 9; Edge 4 1 9; Edge 4 5 5] /\ h = 1%Z
  | _ => False
  end.
Proof. vm_compute. auto. Qed.
Example C121_example_applies : exists g' h, revuz_minimize 7 id_ord id_ord [] ca_g = Some (g', Ok h) /\ ~ twins ca_g 2 4 /\ twins ca_g 2 3.
Proof.
  pose proof (C121_revuz_minimize 7 ca_ops 7 id_ord id_ord ca_disciplined (id_ord_valid _) (id_ord_valid _)) as TH. assert (EG : fst (runs IA_call (IA_init 7) ca_ops) = ca_g) by (unfold ca_g; reflexivity). cbv zeta in TH. rewrite EG in TH. destruct (TH ca_apart) as (g' & h & E & _ & K1 & K2 & _); [vm_compute; lia|]. clear TH.
  exists g', h. split; [exact E|]. assert (EV : IA_vertices g' = [0; 1; 2; 4; 5]) by (pose proof C121_example as M; rewrite E in M; apply M).
  assert (V4 : forall v, v < 7 -> In v (IA_vertices ca_g)) by (intros v L; vm_compute; lia). split.
  - apply (proj1 (K1 4)); [rewrite EV; cbn; tauto|apply V4; lia|lia].
  - destruct (K2 3 (V4 3 ltac:(lia))) as (q & Vq & Lq & T). rewrite EV in Vq. cbn in Vq. destruct Vq as [<-|[<-|[<-|[<-|[<-|[]]]]]]; try lia; [| |exact T].
    + exfalso. destruct T as [T _]. destruct (T [5]) as [_ [_ RD]]. destruct RD as [t P]; [exists 6; econstructor; [vm_compute; tauto|constructor]|]. inversion P as [|? ? x ? ? J P']; subst. vm_compute in J. repeat (destruct J as [J|J]; [discriminate|]). exact J.
    + exfalso. destruct T as [T _]. destruct (T [5]) as [_ [_ RD]]. destruct RD as [t P]; [exists 6; econstructor; [vm_compute; tauto|constructor]|]. inversion P as [|? ? x ? ? J P']; subst. vm_compute in J. repeat (destruct J as [J|J]; [discriminate|]). exact J.
Qed.
