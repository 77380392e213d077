(** Theorem C106 on revuz_minimize.py, on the class IncidenceNodeAutomaton. *)
From Coq Require Import ZArith.
From Verif Require Import Graph GraphProofs Automaton AutomatonSpec AutomatonProofs AutomatonProofs2 AutomatonProofs3 NodeAut NodeAutSpec NodeAutProofs Heap Revuz RevuzSpec RevuzProofs RevuzProofs2 RevuzProofs3 TRevuz RevuzNode RevuzNodeSpec RevuzNodeProofs Base BaseProofs.

Section A.
  Context {A : Type} {EA : EqDec A}.
  Variable sym : nat -> option A.
  Notation narep := (narep sym).
  Lemma narep_vrep (g : naut A) s : narep g s -> nvrep g (NSt (aa_next s) (aa_V s) (aa_T s) sym (aa_q0 s) (aa_final s)).
  Proof.
    intros (((HL & KV & W & R) & (Sy & _) & C & LT) & Q & F). split; [|split; [exact Sy|intros e I; split; apply (C e I)]].
    split; [exact HL|]. split; [exact KV|]. split; [exact W|]. split; [exact R|]. split; [exact Q|]. split; [exact F|exact LT].
  Qed.
  Lemma narc_iff (g : naut A) s u v : narep g s -> aut_arc (NA_edges g) u v <-> aut_arc (aa_T s) u v.
  Proof. intros R. split; intros [a I]; exists a; apply (In_obs_nedges sym g s _ R), I. Qed.
  Lemma nout0 (g : naut A) s v : narep g s -> In v (aa_V s) -> NA_out_degree g v = 0 <-> leaf (aut_arc (NA_edges g)) v.
  Proof.
    intros R Vv. unfold NA_out_degree. destruct (In_obs_nout sym g s v R Vv) as (es & -> & M). split.
    - intros L u [a I]. apply (In_obs_nedges sym g s _ R) in I. assert (J : In (Edge v u a) es) by (apply M; auto). destruct es; [destruct J|discriminate].
    - intros L. destruct es as [|[p r a] l]; [reflexivity|]. destruct (L r). exists a. destruct (proj1 (M (Edge p r a)) (or_introl eq_refl)) as [J1 J2]. cbn in J1. subst p. apply (In_obs_nedges sym g s _ R), J2.
  Qed.
  Lemma nin_arc (g : naut A) s v u : narep g s -> (exists e, In e (INA_in_edges g v) /\ source e = u) <-> aut_arc (NA_edges g) u v.
  Proof.
    intros R. split.
    - intros ([p r a] & I & E). cbn in E. subst p. apply (In_obs_nin sym g s v _ R) in I. cbn in I. destruct I as [-> I]. exists a. apply (In_obs_nedges sym g s _ R), I.
    - intros [a I]. exists (Edge u v a). split; [|reflexivity]. apply (In_obs_nin sym g s v _ R). split; [reflexivity|]. apply (In_obs_nedges sym g s _ R), I.
  Qed.
  Lemma narc_in (g : naut A) s u v : narep g s -> aut_arc (NA_edges g) u v -> In u (NA_vertices g) /\ In v (NA_vertices g).
  Proof. intros R [a I]. apply (In_obs_nedges sym g s _ R) in I. rewrite (narep_V sym g s R). apply (narep_closed sym g s R _ _ _ I). Qed.
  Lemma nheights_of (g : naut A) s ord m0 fuel : narep g s -> acyclic (aut_arc (NA_edges g)) -> valid_order ord -> length (NA_vertices g) <= fuel ->
    exists r m, revuz_height (NA_vertices g) (NA_out_degree g) (INA_in_edges g) fuel ord [] m0 = Some (r, m) /\
      (forall v, In v (NA_vertices g) -> exists n, dget m v = Some n /\ height_is (aut_arc (NA_edges g)) v n /\ (Z.of_nat n <= r)%Z) /\
      (forall v, ~ In v (NA_vertices g) -> dget m v = dget m0 v) /\
      (r = (-1)%Z /\ NA_vertices g = [] \/ exists v n, In v (NA_vertices g) /\ height_is (aut_arc (NA_edges g)) v n /\ r = Z.of_nat n).
  Proof.
    intros R AC O F. pose proof (narep_V sym g s R) as EV. apply C69_revuz_height; auto.
    - rewrite EV. apply (narep_nodup sym g s R).
    - intros v u _. apply (nin_arc g s v u R).
    - intros v Vv. rewrite EV in Vv. apply (nout0 g s v R Vv).
    - intros u v. apply (narc_in g s u v R).
  Qed.
  Lemma nwords_uniq ht s0 h (g : naut A) s : narep g s -> ninv sym ht s0 h [] s -> forall n x y, ht x < n -> In x (aa_V s) -> In y (aa_V s) -> sym x = sym y -> same_words s s x y -> x = y.
  Proof.
    intros R I. pose proof (narep_det sym g s R) as DET. pose proof (narep_closed sym g s R) as CL. pose proof (narep_label sym g s R) as LB.
    induction n as [|n IH]; intros x y L Vx Vy SY SW; [lia|].
    assert (NX : forall p q a r r', same_words s s p q -> In (Edge p r a) (aa_T s) -> In (Edge q r' a) (aa_T s) -> same_words s s r r').
    { intros p q a r r' S1 J J' w. destruct (S1 (a :: w)) as [S2 S3]. rewrite (right_cons _ _ p r), (right_cons _ _ q r') in S2 by (eauto using DET). rewrite (readable_cons _ p r), (readable_cons _ q r') in S3 by (eauto using DET). tauto. }
    assert (ST : forall p q a r, same_words s s p q -> In (Edge p r a) (aa_T s) -> exists r', In (Edge q r' a) (aa_T s)).
    { intros p q a r S1 J. destruct (S1 [a]) as [_ [S2 _]]. destruct S2 as [t P]; [exists r; econstructor; [exact J|constructor]|]. inversion P as [|? ? r' ? ? J' P']; subst. exists r'. exact J'. }
    apply (j_uniq _ _ _ _ _ _ I x y Vx Vy).
    - apply (nlevel_empty sym ht s0 h s I x Vx). intros p r a J. apply (CL _ _ _ J).
    - split; [exact SY|]. split.
      + destruct (SW []) as [F _]. rewrite !right_nil in F. destruct (aa_final s x), (aa_final s y); try reflexivity; [symmetry|]; tauto.
      + intros a r. split; intros J.
        * destruct (ST x y a r SW J) as [r' J']. assert (r = r') as <-; [|exact J']. apply IH; [pose proof (j_down _ _ _ _ _ _ I _ _ _ J); lia|apply (CL _ _ _ J)|apply (CL _ _ _ J')|rewrite <- (LB _ _ _ J), <- (LB _ _ _ J'); reflexivity|apply (NX x y a); assumption].
        * destruct (ST y x a r (same_sym _ _ _ _ SW) J) as [r' J']. assert (r' = r) as <-; [|exact J']. apply IH; [pose proof (j_down _ _ _ _ _ _ I _ _ _ J'); lia|apply (CL _ _ _ J')|apply (CL _ _ _ J)|rewrite <- (LB _ _ _ J), <- (LB _ _ _ J'); reflexivity|apply (NX x y a); assumption].
  Qed.
  Lemma nright_rep (g : naut A) s q w : narep g s -> naccepted g q w <-> right (aa_T s) (aa_final s) q w.
  Proof.
    intros R. assert (HF : forall q, na_final g q = aa_final s q) by apply R.
    split; intros (r & P & F); exists r; (split; [revert P; apply path_perm; intros e; rewrite (In_obs_nedges sym g s _ R); tauto|]); [rewrite <- HF|rewrite HF]; exact F.
  Qed.
  Lemma nreadable_rep (g : naut A) s q w : narep g s -> readable (NA_edges g) q w <-> readable (aa_T s) q w.
  Proof. intros R. split; intros (r & P); exists r; revert P; apply path_perm; intros e; rewrite (In_obs_nedges sym g s _ R); tauto. Qed.
  Lemma nequiv_rep (g : naut A) s x y : narep g s -> nequiv g x y <-> sym x = sym y /\ same_words s s x y.
  Proof.
    intros R. unfold nequiv, same_words. rewrite !(narep_sym sym g s _ R). split; intros [H1 H2]; (split; [exact H1|]); intros w; specialize (H2 w).
    - rewrite <- !(nright_rep g s _ w R), <- !(nreadable_rep g s _ w R). exact H2.
    - rewrite !(nright_rep g s _ w R), !(nreadable_rep g s _ w R). exact H2.
  Qed.
End A.

Lemma history_rep {A} {EA : EqDec A} (ops : list (rop A)) : forall g s, nrep g s -> ndisciplined s (graph_calls ops) ->
  nrep (fold_left INA_rcall ops g) (fst (runs ns_step s (graph_calls ops))).
Proof.
  induction ops as [|op ops IH]; intros g s R D; [exact R|]. cbn [fold_left]. destruct op as [op|q b|q b]; cbn [graph_calls] in *.
  - destruct D as [D1 D2]. destruct (NA_step g s op R D1) as [R1 _]. cbn [INA_rcall]. specialize (IH _ _ R1 D2). cbn [runs]. destruct (ns_step s op) as [s1 o]. cbn [fst] in *. destruct (runs ns_step s1 (graph_calls ops)). exact IH.
  - apply IH; [exact R|exact D].
  - apply IH; [exact R|exact D].
Qed.

(** C106. revuz_minimize keeps exactly the smallest state of each class of equivalent states (same symbol, same accepted words, same readable words). A state that is kept accepts the words it
    accepted and keeps its symbol. The language is preserved when the initial state is kept; otherwise only the empty word can be recognised, and every other word raises KeyError. *)
Theorem C106_revuz_node (A : Type) (EA : EqDec A) (ops : list (rop A)) fuel ord ord_v : ndisciplined ns_init (graph_calls ops) -> valid_order ord -> valid_order ord_v ->
  let g := INA_history ops in
  acyclic (aut_arc (NA_edges g)) -> length (NA_vertices g) <= fuel ->
  exists g' h, node_revuz_minimize fuel ord ord_v [] g = Some (g', Ok h) /\ na_q0 g' = na_q0 g /\
    (forall q, In q (NA_vertices g') <-> In q (NA_vertices g) /\ forall q', In q' (NA_vertices g) -> q' < q -> ~ nequiv g q' q) /\
    (forall q, In q (NA_vertices g) -> exists q', In q' (NA_vertices g') /\ q' <= q /\ nequiv g q' q) /\
    (forall q, In q (NA_vertices g') -> na_symbol g' q = na_symbol g q /\ forall w, naccepted g' q w <-> naccepted g q w) /\
    (forall e, In e (NA_edges g') -> distinguisher e = na_symbol g (target e) /\ In (source e) (NA_vertices g') /\ In (target e) (NA_vertices g')) /\
    (forall i, na_q0 g = Some i -> In i (NA_vertices g') -> forall w, NA_accepts g' w = NA_accepts g w) /\
    (forall i, na_q0 g = Some i -> ~ In i (NA_vertices g') -> forall w, NA_accepts g' w = match w with [] => Ok (na_final g i) | _ => Raise KeyError end) /\
    ((h = (-1)%Z /\ NA_vertices g = []) \/ exists v k, In v (NA_vertices g) /\ height_is (aut_arc (NA_edges g)) v k /\ h = Z.of_nat k /\ forall u m, In u (NA_vertices g) -> height_is (aut_arc (NA_edges g)) u m -> m <= k).
Proof.
  intros D OE OV g AC F. pose proof (history_rep ops _ _ nrep_init D) as NR. fold (INA_history ops) in NR. fold g in NR. set (s1 := fst (runs ns_step ns_init (graph_calls ops))) in NR.
  pose (sym := ns_sym s1). pose (s := AA (ns_next s1) (ns_V s1) (ns_T s1) (na_q0 g) (na_final g)).
  assert (R : narep sym g s) by (split; [unfold sym; cbn; destruct s1; exact NR|split; reflexivity]). clearbody g sym s. clear D ops NR s1.
  destruct (nheights_of sym g s ord_v [] fuel R AC OV F) as (r & m & E & HT & _ & _). unfold node_revuz_minimize. rewrite E. clear E.
  pose (ht := height_of m). pose proof (narep_V sym g s R) as EV.
  assert (HI : forall v, In v (aa_V s) -> height_is (aut_arc (NA_edges g)) v (ht v)).
  { intros v Vv. rewrite <- EV in Vv. destruct (HT v Vv) as (k & G & HK & _). unfold ht, height_of. rewrite G. exact HK. }
  assert (SHORT : forall v, In v (aa_V s) -> ht v < length (aa_V s)).
  { intros v Vv. destruct (HI v Vv) as [(l & _ & P) _]. rewrite <- EV in *. revert P Vv. apply path_short; [intros x y; apply (narc_in sym g s x y R)|exact AC]. }
  assert (I0 : ninv sym ht s 0 (leaves_of (NA_vertices g) (NA_out_degree g) []) s).
  { split; try reflexivity; auto.
    - intros v _. apply same_refl.
    - intros p x a J. destruct (narep_closed sym g s R _ _ _ J) as [Vp Vx]. destruct (HI x Vx) as [(l & L & P) _]. destruct (HI p Vp) as [_ MX]. apply (MX (S (ht x)) l L). econstructor; [exists a; apply (In_obs_nedges sym g s _ R), J|exact P].
    - intros p k Vp Hp. destruct (HI p Vp) as [(l & L & P) MX]. rewrite Hp in *. apply upath_first in P; [|exact L]. destruct P as (u & [a J] & P). apply (In_obs_nedges sym g s _ R) in J. destruct (narep_closed sym g s R _ _ _ J) as [_ Vu]. exists u, a. split; [exact J|].
      destruct (HI u Vu) as [(l' & L' & P') MX']. pose proof (MX' k l L P). specialize (MX (S (ht u)) l' L'). assert (S (ht u) <= S k); [|lia]. apply MX. econstructor; [exists a; apply (In_obs_nedges sym g s _ R), J|exact P'].
    - cbn [leaves_of]. rewrite EV. split; [apply NoDup_filter, (narep_nodup sym g s R)|]. intros v. rewrite filter_In, Nat.eqb_eq. split.
      + intros [Vv L]. rewrite (nout0 sym g s v R Vv) in L. split; [exact Vv|]. destruct (HI v Vv) as [(l & L' & P) _]. destruct (ht v) as [|k]; [reflexivity|]. apply upath_first in P; [|exact L']. destruct P as (u & J & _). destruct (L u J).
      + intros [Vv H0]. rewrite (nout0 sym g s v R Vv). split; [exact Vv|]. destruct (HI v Vv) as [(l & L' & P) _]. rewrite H0 in P. apply upath_first in P; [|exact L']. subst l. exact L'.
    - intros; lia.
    - intros v Vv NV. contradiction. }
  destruct (nminimize_loop_spec sym m ord ord_v s (length (aa_V s)) OE OV SHORT fuel 0 _ g s R I0) as (g' & s' & h' & E & R' & I' & _ & K); [rewrite <- EV; lia|].
  exists g', (Z.of_nat h' - 1)%Z. split; [exact E|]. fold ht in I', K.
  pose proof (narep_V sym g' s' R') as EV'.
  assert (Q0 : na_q0 g' = na_q0 g).
  { assert (Q1 : na_q0 g = aa_q0 s) by apply R. assert (Q2 : na_q0 g' = aa_q0 s') by apply R'. rewrite Q1, Q2. apply (j_q0 _ _ _ _ _ _ I'). }
  assert (ACC : forall q, In q (aa_V s') -> forall w, naccepted g' q w <-> naccepted g q w).
  { intros q Vq w. rewrite (nright_rep sym g' s' q w R'), (nright_rep sym g s q w R). symmetry. apply (j_same _ _ _ _ _ _ I' q Vq). }
  assert (MIN : forall x y, In x (aa_V s') -> In y (aa_V s') -> sym x = sym y -> same_words s s x y -> x = y).
  { intros x y Vx Vy SY SW. apply (nwords_uniq sym ht s h' g' s' R' I' (S (ht x)) x y); [lia|assumption..|]. apply (same_trans _ s _ _ x); [apply same_sym, (j_same _ _ _ _ _ _ I' x Vx)|]. apply (same_trans _ s _ _ y); [exact SW|apply (j_same _ _ _ _ _ _ I' y Vy)]. }
  assert (REP : forall q, In q (aa_V s) -> exists q', In q' (aa_V s') /\ q' <= q /\ (q' = q \/ q' < q) /\ sym q' = sym q /\ same_words s s q' q).
  { intros q Vq. destruct (in_dec Nat.eq_dec q (aa_V s')) as [V'|NV]; [exists q; repeat split; auto; apply same_refl|]. destruct (j_removed _ _ _ _ _ _ I' q Vq NV) as (q' & V' & [L' _] & SY & SW). exists q'. split; [exact V'|]. split; [lia|]. auto. }
  split; [exact Q0|]. rewrite EV, EV'. split; [|split; [|split; [|split; [|split; [|split]]]]].
  - intros q. split.
    + intros Vq. split; [apply (j_V _ _ _ _ _ _ I' q Vq)|]. intros q' V' L' N. apply (nequiv_rep sym g s q' q R) in N. destruct N as [N1 N2]. destruct (REP q' V') as (q2 & V2 & L2 & _ & Y2 & S2).
      assert (q2 = q); [|lia]. apply MIN; [exact V2|exact Vq|congruence|]. apply (same_trans _ s _ _ q'); assumption.
    + intros [Vq H]. destruct (REP q Vq) as (q' & V' & _ & [->|L'] & Y' & S'); [exact V'|]. exfalso. apply (H q' (j_V _ _ _ _ _ _ I' q' V') L'). apply (nequiv_rep sym g s q' q R). auto.
  - intros q Vq. destruct (REP q Vq) as (q' & V' & L' & _ & Y' & S'). exists q'. split; [exact V'|]. split; [exact L'|]. apply (nequiv_rep sym g s q' q R). auto.
  - intros q Vq. split; [rewrite (narep_sym sym g' s' q R'), (narep_sym sym g s q R); reflexivity|apply ACC, Vq].
  - intros [p q a] J. apply (In_obs_nedges sym g' s' _ R') in J. cbn [distinguisher source target]. rewrite (narep_sym sym g s q R). split; [apply (narep_label sym g' s' R' _ _ _ J)|apply (narep_closed sym g' s' R' _ _ _ J)].
  - intros i Ei Vi w. pose proof (nv_accepts g _ w (narep_vrep sym g s R)) as B1. pose proof (nv_accepts g' _ w (narep_vrep sym g' s' R')) as B2. cbn [nv_q0 nv_V nv_T nv_final] in B1, B2.
    assert (Q1 : na_q0 g = aa_q0 s) by apply R. assert (Q2 : na_q0 g' = aa_q0 s') by apply R'. rewrite <- Q1, Ei in B1. rewrite <- Q2, Q0, Ei in B2. pose proof (j_V _ _ _ _ _ _ I' i Vi) as Vs.
    rewrite (proj2 (mem_spec _ _) Vi) in B2. rewrite (proj2 (mem_spec _ _) Vs) in B1. destruct B1 as (b1 & -> & B1), B2 as (b2 & -> & B2). f_equal. apply eq_iff_eq_true. rewrite B1, B2. symmetry. apply (j_same _ _ _ _ _ _ I' i Vi).
  - intros i Ei NV w. pose proof (nv_accepts g' _ w (narep_vrep sym g' s' R')) as B2. cbn [nv_q0 nv_V nv_T nv_final] in B2.
    assert (Q2 : na_q0 g' = aa_q0 s') by apply R'. rewrite <- Q2, Q0, Ei in B2. rewrite (proj2 (mem_false _ _) NV) in B2. rewrite B2, (j_final _ _ _ _ _ _ I'). assert (HF : forall q, na_final g q = aa_final s q) by apply R. rewrite HF. reflexivity.
  - assert (UB : forall v, In v (aa_V s) -> ht v < h').
    { intros v Vv. assert (CL : forall p r a, In (Edge p r a) (aa_T s') -> In r (aa_V s')) by (intros p x a J; apply (narep_closed sym g' s' R' _ _ _ J)). destruct (in_dec Nat.eq_dec v (aa_V s')) as [V'|NV]; [apply (nlevel_empty sym ht s h' s' I' v V' CL)|]. destruct (j_removed _ _ _ _ _ _ I' v Vv NV) as (q & Vq & [_ <-] & _). apply (nlevel_empty sym ht s h' s' I' q Vq CL). }
    destruct h' as [|h'].
    + left. split; [reflexivity|]. clear -UB. destruct (aa_V s) as [|v l]; [reflexivity|]. specialize (UB v (or_introl eq_refl)). lia.
    + right. destruct (K h' ltac:(lia)) as (v & Vv & Hv). exists v, h'. split; [exact Vv|]. split; [rewrite <- Hv; apply HI, Vv|]. split; [lia|]. intros u k Vu HK.
      pose proof (UB u Vu). destruct HK as [(l & L & P) _]. pose proof (proj2 (HI u Vu) k l L P). lia.
Qed.
Print Assumptions C106_revuz_node.

(** The initial state may be merged away, and then the automaton is broken: 0 and 1 have no symbol, 2 has the symbol 7, 0 -> 2, 1 -> 2, 2 final, and 1 initial. *)
Theorem C106_initial_merged_refuted : exists (ops : list (rop nat)) g', ndisciplined ns_init (graph_calls ops) /\
  let g := INA_history ops in
  acyclic (aut_arc (NA_edges g)) /\ node_revuz_minimize 3 id_ord id_ord [] g = Some (g', Ok 1%Z) /\ NA_accepts g [7] = Ok true /\ NA_accepts g' [7] = Raise KeyError.
Proof.
  exists [RCall (NAddVertex None); RCall (NAddVertex None); RCall (NAddVertex (Some 7)); RCall (NAddEdge 0 2); RCall (NAddEdge 1 2); RSetFinal 2 true; RSetInitial (Some 1) true]. eexists. split; [cbn; tauto|]. intros g. split; [|split; [vm_compute; reflexivity|split; reflexivity]].
  assert (UP : forall u v, aut_arc (NA_edges g) u v -> u < v) by (intros u v [a I]; vm_compute in I; destruct I as [I|[I|[]]]; injection I as <- <- <-; lia).
  intros k v P. assert (G : forall k u v, upath (aut_arc (NA_edges g)) k u v -> u <= v /\ (0 < k -> u < v)) by (clear -UP; induction 1 as [|k u v x R P IH]; [lia|]; specialize (UP _ _ R); lia). destruct (G _ _ _ P) as [_ L]. lia.
Qed.
Print Assumptions C106_initial_merged_refuted.

(** 1 and 4 have the symbol 1, 2 the symbol 2, 3 and 5 the symbol 3; 3 and 5 are final. 5 is merged with 3, then 4 with 1; 2 also reads 3 from the class of 3, but its symbol differs. *)
Definition rn_ops : list (rop nat) :=
  [RCall (NAddVertex None); RCall (NAddVertex (Some 1)); RCall (NAddVertex (Some 2)); RCall (NAddVertex (Some 3)); RCall (NAddVertex (Some 1)); RCall (NAddVertex (Some 3));
   RCall (NAddEdge 0 1); RCall (NAddEdge 0 2); RCall (NAddEdge 1 3); RCall (NAddEdge 2 4); RCall (NAddEdge 4 5); RCall (NAddEdge 2 3); RSetFinal 3 true; RSetFinal 5 true].
Definition rn_g : naut nat := INA_history rn_ops.
Example rn_disciplined : ndisciplined ns_init (graph_calls rn_ops).
Proof. cbn. repeat split; auto 12. Qed.
Example rn_acyclic : acyclic (aut_arc (NA_edges rn_g)).
Proof.
  assert (EG : NA_edges rn_g = [Edge 0 1 (Some 1); Edge 0 2 (Some 2); Edge 1 3 (Some 3); Edge 2 4 (Some 1); Edge 2 3 (Some 3); Edge 4 5 (Some 3)]) by (vm_compute; reflexivity). rewrite EG.
  pose (rank v := nth v [0; 2; 1; 3; 2; 3] 0).
  assert (UP : forall u v, aut_arc [Edge 0 1 (Some 1); Edge 0 2 (Some 2); Edge 1 3 (Some 3); Edge 2 4 (Some 1); Edge 2 3 (Some 3); Edge 4 5 (Some 3)] u v -> rank u < rank v) by (intros u v [a I]; cbn [In] in I; repeat (destruct I as [I|I]; [injection I as <- <- <-; vm_compute; lia|]); destruct I).
  clearbody rank. intros k v P. assert (G : forall k u v, upath (aut_arc [Edge 0 1 (Some 1); Edge 0 2 (Some 2); Edge 1 3 (Some 3); Edge 2 4 (Some 1); Edge 2 3 (Some 3); Edge 4 5 (Some 3)]) k u v -> rank u <= rank v /\ (0 < k -> rank u < rank v)) by (clear -UP; induction 1 as [|k u v x R P IH]; [lia|]; specialize (UP _ _ R); lia). destruct (G _ _ _ P) as [_ L]. apply (Nat.lt_irrefl _ (L (Nat.lt_0_succ _))).
Qed.
Example C106_example : match node_revuz_minimize 6 id_ord id_ord [] rn_g with
  | Some (g', Ok h) => NA_vertices g' = [0; 1; 2; 3] /\ NA_edges g' = [Edge 0 1 (Some 1); Edge 0 2 (Some 2); Edge 1 3 (Some 3); Edge 2 3 (Some 3); Edge 2 1 (Some 1)] /\ h = 3%Z /\ NA_accepts g' [2; 1; 3] = Ok true /\ NA_accepts rn_g [2; 1; 3] = Ok true
  | _ => False
  end.
Proof. vm_compute. auto. Qed.
Example C106_example_applies : exists g' h, node_revuz_minimize 6 id_ord id_ord [] rn_g = Some (g', Ok h) /\ forall w, NA_accepts g' w = NA_accepts rn_g w.
Proof.
  destruct (C106_revuz_node nat _ rn_ops 6 id_ord id_ord rn_disciplined (id_ord_valid _) (id_ord_valid _) rn_acyclic) as (g' & h & E & _ & _ & _ & _ & _ & L & _); [vm_compute; lia|].
  exists g', h. split; [exact E|]. apply (L 0 eq_refl). assert (M : match node_revuz_minimize 6 id_ord id_ord [] rn_g with Some (g', _) => NA_vertices g' = [0; 1; 2; 3] | None => False end) by (vm_compute; reflexivity).
  change (INA_history rn_ops) with rn_g in E. rewrite E in M. rewrite M. left. reflexivity.
Qed.
