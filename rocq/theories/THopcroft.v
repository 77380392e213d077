(** Theorems C47 on hopcroft_minimize.py. *)
From Verif Require Import Graph GraphProofs Automaton AutomatonSpec AutomatonProofs AutomatonProofs2 Revuz RevuzSpec RevuzProofs RevuzProofs2 Hopcroft HopcroftProofs HopcroftProofs2 MinSpec MinProofs Base BaseProofs.

Section A.
  Context {A : Type} {EA : EqDec A}.
  Variables (ord_w : set_order (list nat)) (ord_p : nat -> set_order (list nat)) (ord_a : set_order A) (ord_l : set_order (list nat)) (ord_q : list nat -> list nat).
  Hypothesis (OW : valid_order ord_w) (OP : forall n, valid_order (ord_p n)) (OA : valid_order ord_a) (OL : valid_order ord_l) (OQ : forall B, Permutation (ord_q B) B).

  Lemma J_perm (g : iaut A) P P' : J g P [] (fun _ _ _ => False) -> Permutation P P' -> J g P' [] (fun _ _ _ => False).
  Proof.
    intros [[H1 H2 H3] H4 H5 H6 H7] PP. assert (I : forall B, In B P' <-> In B P) by (intros B; split; apply Permutation_in; [symmetry|]; exact PP).
    split; [split; [apply (Permutation_NoDup PP), H1| |]|split; [constructor|intros ? []]| | |].
    - intros B B' q. rewrite !I. apply H2.
    - intros q. rewrite H3. split; intros (B & J1 & J2); exists B; split; auto; apply I, J1.
    - intros B. rewrite I. apply H5.
    - intros B x y. rewrite I. apply H6.
    - intros B x y a. rewrite I. intros IB Ix Iy (C & IC & SC). apply (H7 B x y a IB Ix Iy). exists C. split; [apply I, IC|exact SC].
  Qed.

  Lemma hopcroft_rep (g : iaut A) s fuel : iarep g s ->
    (exists q, In q (IA_vertices g) /\ A_is_final (ia_base g) q = true) -> (exists q, In q (IA_vertices g) /\ A_is_final (ia_base g) q = false) ->
    (exists q, In q (IA_vertices g) /\ A_initial (ia_base g) = Some q) -> length (IA_vertices g) <= fuel ->
    exists g' cls s', iarep g' s' /\ hopcroft_minimize fuel g ord_w ord_p ord_a ord_l ord_q = Some (g', Ok tt) /\
      (exists q, A_initial (ia_base g') = Some q /\ (forall q0, A_initial (ia_base g) = Some q0 -> cls q0 = q) /\ wf_dfa (ia_dfa g' q) /\ forall w, A_accepts (ia_base g') w = true <-> language (ia_dfa g' q) w) /\
      (forall w, A_accepts (ia_base g') w = A_accepts (ia_base g) w) /\
      (forall q, In q (IA_vertices g) -> In (cls q) (IA_vertices g') /\ forall w, (accepted g' (cls q) w <-> accepted g q w) /\ (readable (IA_edges g') (cls q) w <-> readable (IA_edges g) q w)) /\
      (forall i, In i (IA_vertices g') -> exists q, In q (IA_vertices g) /\ cls q = i) /\
      (forall p q, In p (IA_vertices g) -> In q (IA_vertices g) ->
        (cls p = cls q <-> forall w, (accepted g p w <-> accepted g q w) /\ (readable (IA_edges g) p w <-> readable (IA_edges g) q w))) /\
      (A_is_complete (ia_base g) = true \/ (forall q, In q (IA_vertices g) -> exists w, accepted g q w) ->
        forall i j, In i (IA_vertices g') -> In j (IA_vertices g') -> (forall w, accepted g' i w <-> accepted g' j w) -> i = j).
  Proof using OW OP OA OL OQ.
    intros R HF HN (q0 & V0 & Q0) LF.
    destruct (agglomerate_ok g s R fuel ord_w ord_p ord_a OW OP OA LF HF HN) as (P & E & HJ & NE).
    unfold hopcroft_minimize. rewrite E. clear E. replace (match IA_vertices g with [] => Some (g, Ok tt) | _ => _ end) with
      (match find_idx (existsb (A_is_initial (ia_base g))) (ord_l 0 P) with
       | Some i => let l := swap0 (ord_l 0 P) i in
           Some (foreach (add_new_edge l) (IA_make (length l) (fun i => match nth_error l i with Some qs => existsb (A_is_final (ia_base g)) qs | None => false end))
             (flat_map (fun qs => flat_map (fun q => map (pair qs) (IA_out_edges g q)) (ord_q qs)) l))
       | None => Some (g, Raise AssertionError) end) by (destruct (IA_vertices g); [destruct V0|reflexivity]).
    pose proof (J_perm g P (ord_l 0 P) HJ (Permutation_sym (OL 0 P))) as HL.
    assert (INI : exists B, In B (ord_l 0 P) /\ existsb (A_is_initial (ia_base g)) B = true).
    { destruct (proj1 (p_cover _ _ (j_part _ _ _ _ HL) q0) V0) as (B & IB & Iq). exists B. split; [exact IB|]. apply existsb_exists. exists q0. split; [exact Iq|]. unfold A_is_initial. unfold A_initial in Q0. rewrite Q0. apply eqb_refl. }
    destruct INI as (B & IB & EB). destruct (find_idx_ex _ _ _ IB EB) as [i Ei]. rewrite Ei. destruct (find_idx_some _ _ _ Ei) as (B0 & N0 & E0).
    destruct (swap0_spec (ord_l 0 P) i B0 N0) as [PS H0]. set (l := swap0 (ord_l 0 P) i) in *. cbv zeta. pose proof (J_perm g _ l HL (Permutation_sym PS)) as HJl.
    assert (NEl : ~ In [] l) by (intros I; apply NE; apply (Permutation_in _ (OL 0 P)), (Permutation_in _ PS), I). clearbody l. clear HL HJ NE IB EB B Ei N0 PS i.
    assert (I0 : In q0 B0).
    { apply existsb_exists in E0. destruct E0 as (q & Iq & Eq). unfold A_is_initial in Eq. unfold A_initial in Q0. rewrite Q0 in Eq. destruct (eqb_spec (Some q0) (Some q)) as [[= <-]|]; [exact Iq|discriminate]. }
    set (final := fun i => match nth_error l i with Some qs => existsb (A_is_final (ia_base g)) qs | None => false end). set (es := flat_map (fun qs => flat_map (fun q => map (pair qs) (IA_out_edges g q)) (ord_q qs)) l).
    assert (HES : forall B e, In (B, e) es <-> In B l /\ In (source e) B /\ In e (IA_edges g)).
    { intros B e. unfold es. rewrite in_flat_map. split.
      - intros (B' & IB & I). apply in_flat_map in I. destruct I as (q & Iq & I). apply in_map_iff in I. destruct I as (e' & [= <- <-] & I). apply (In_obs_out g s q _ R) in I. destruct I as [<- I]. split; [exact IB|]. split; [apply (Permutation_in _ (OQ B')), Iq|]. apply (Permutation_in _ (Permutation_sym (obs_edges _ _ (proj1 R)))), I.
      - intros (IB & Is & Ie). exists B. split; [exact IB|]. apply in_flat_map. exists (source e). split; [apply (Permutation_in _ (Permutation_sym (OQ B))), Is|]. apply in_map. apply (In_obs_out g s _ _ R). split; [reflexivity|]. apply (Permutation_in _ (obs_edges _ _ (proj1 R))), Ie. }
    destruct (add_new_all g s l R HJl es (fun B e I => proj1 (HES B e) I) _ _ (make_rep (length l) final)) as (g' & s' & E & R' & EV & EQ & EF & T1 & _ & T2); [reflexivity|intros i j a []|]. cbn [aa_V aa_q0 aa_final] in EV, EQ, EF.
    assert (HT : forall i j a, In (Edge i j a) (aa_T s') <-> F g l i a j).
    { intros i j a. split; [apply T1|]. intros (q & r & Bi & Bj & Ei & Iq & Dq & Ej & Ir). apply (T2 Bi (Edge q r a) i j Bj); auto. apply HES. split; [apply (nth_error_In _ _ Ei)|]. split; [exact Iq|apply (delta_edges g s R), Dq]. }
    assert (HFI : forall i B q, nth_error l i = Some B -> In q B -> aa_final s' i = A_is_final (ia_base g) q).
    { intros i B q Ei Iq. rewrite EF. unfold final. rewrite Ei. apply eq_iff_eq_true. rewrite existsb_exists. split.
      - intros (x & Ix & Fx). rewrite (j_final _ _ _ _ HJl B q x (nth_error_In _ _ Ei) Iq Ix). exact Fx.
      - intros Fq. exists q. auto. }
    assert (EV' : IA_vertices g' = seq 0 (length l)) by (rewrite <- EV; apply (obs_vertices _ _ (proj1 R'))).
    pose (cls := fun q => match find_idx (mem q) l with Some i => i | None => 0 end).
    assert (CLS : forall q, In q (IA_vertices g) -> exists B, nth_error l (cls q) = Some B /\ In q B).
    { intros q Vq. apply (p_cover _ _ (j_part _ _ _ _ HJl)) in Vq. destruct Vq as (B & IB & Iq). destruct (find_idx_ex (mem q) l B IB (proj2 (mem_spec _ _) Iq)) as [i Ei]. unfold cls. rewrite Ei. destruct (find_idx_some _ _ _ Ei) as (B' & N' & M). exists B'. split; [exact N'|apply mem_spec, M]. }
    assert (SAME : forall p q, In p (IA_vertices g) -> In q (IA_vertices g) -> (cls p = cls q <-> forall w, (accepted g p w <-> accepted g q w) /\ (readable (IA_edges g) p w <-> readable (IA_edges g) q w))).
    { intros p q Vp Vq. destruct (CLS p Vp) as (Bp & Ep & Ip), (CLS q Vq) as (Bq & Eq & Iq). split.
      - intros EC w. rewrite EC in Ep. rewrite <- (lang_accepted g g' s s' l R HJl R' HT HFI p _ Bp w Ep Ip), <- (lang_accepted g g' s s' l R HJl R' HT HFI q _ Bq w Eq Iq).
        rewrite <- (lang_readable g g' s s' l R HJl R' HT p _ Bp w Ep Ip), <- (lang_readable g g' s s' l R HJl R' HT q _ Bq w Eq Iq). tauto.
      - intros H. apply (cell g l HJl _ _ Bp Bq q Ep Eq); [|exact Iq]. apply (j_closed _ _ _ _ HJl Bp (nth_error_In _ _ Ep) p q); [exact H|exact Vq|exact Ip]. }
    assert (SURJ : forall i, In i (IA_vertices g') -> exists q, In q (IA_vertices g) /\ cls q = i).
    { intros i Vi. rewrite EV' in Vi. apply in_seq in Vi. destruct (nth_error l i) as [B|] eqn:Ei; [|apply nth_error_None in Ei; lia]. destruct B as [|q B]; [destruct NEl; apply (nth_error_In _ _ Ei)|].
      exists q. assert (Vq : In q (IA_vertices g)) by (apply (p_cover _ _ (j_part _ _ _ _ HJl)); exists (q :: B); split; [apply (nth_error_In _ _ Ei)|left; reflexivity]). split; [exact Vq|]. destruct (CLS q Vq) as (B' & E' & I'). apply (cell g l HJl _ _ B' (q :: B) q E' Ei I'). left. reflexivity. }
    assert (ACC : forall q w, In q (IA_vertices g) -> (accepted g' (cls q) w <-> accepted g q w)) by (intros q w Vq; destruct (CLS q Vq) as (B & EB & Iq); apply (lang_accepted g g' s s' l R HJl R' HT HFI q _ B w EB Iq)).
    assert (RDB : forall q w, In q (IA_vertices g) -> (readable (IA_edges g') (cls q) w <-> readable (IA_edges g) q w)) by (intros q w Vq; destruct (CLS q Vq) as (B & EB & Iq); apply (lang_readable g g' s s' l R HJl R' HT q _ B w EB Iq)).
    exists g', cls, s'. split; [exact R'|]. split; [rewrite E; reflexivity|]. split; [|split; [|split; [|split; [exact SURJ|split; [exact SAME|]]]]].
    - exists 0. assert (Q0' : A_initial (ia_base g') = Some 0) by (rewrite <- EQ; apply R'). split; [exact Q0'|]. split; [intros q Eq; assert (q = q0) as -> by congruence; destruct (CLS q0 V0) as (B & EB & IB); apply (cell g l HJl _ _ B B0 q0 EB H0 IB I0)|]. split; [|intros w; apply (accepts_language g' s' 0 w R' Q0')]. apply (iarep_wf g' s' 0 R'). rewrite EV'. apply in_seq. assert (0 < length l) by (apply nth_error_Some; congruence). lia.
    - intros w. apply eq_iff_eq_true. rewrite (accepts_path _ _ (proj1 R')), (accepts_path _ _ (proj1 R)).
      assert (Q0' : A_initial (ia_base g') = Some 0) by (rewrite <- EQ; apply R').
      pose proof (lang_accepted g g' s s' l R HJl R' HT HFI q0 0 B0 w H0 I0) as LA. split; intros (q & r & Eq & Pr & Fr).
      + rewrite Q0' in Eq. injection Eq as <-. destruct (proj1 LA) as (t & P1 & P2); [exists r; auto|]. exists q0, t. auto.
      + rewrite Q0 in Eq. injection Eq as <-. destruct (proj2 LA) as (t & P1 & P2); [exists r; auto|]. exists 0, t. auto.
    - intros q Vq. split; [|intros w; split; [apply ACC, Vq|apply RDB, Vq]]. destruct (CLS q Vq) as (B & EB & _). rewrite EV'. apply in_seq. assert (cls q < length l) by (apply nth_error_Some; congruence). lia.
    - intros CC i j Vi Vj H. destruct (SURJ i Vi) as (p & Vp & <-), (SURJ j Vj) as (q & Vq & <-). apply SAME; [exact Vp|exact Vq|].
      assert (HA : forall w, accepted g p w <-> accepted g q w) by (intros w; rewrite <- !ACC by assumption; apply H).
      assert (RD : forall p q, In p (IA_vertices g) -> In q (IA_vertices g) -> (forall w, accepted g p w -> accepted g q w) -> forall w, readable (IA_edges g) p w -> readable (IA_edges g) q w).
      { clear -CC R. intros p q Vp Vq H w (t & P). assert (Vt : In t (IA_vertices g)) by (clear -P Vp R; induction P as [|q a r w t I P IH]; [exact Vp|]; apply IH, (delta_in g s R q a r), (delta_edges g s R), I).
        destruct CC as [CM|CO].
        - clear -CM R P Vq. revert q Vq. induction P as [p|p a r w t I P IH]; intros q Vq; [exists q; constructor|].
          assert (Ex : exists r', In (Edge q r' a) (aa_T s)).
          { apply (proj1 (obs_complete _ _ (proj1 R)) CM); [rewrite <- (obs_vertices _ _ (proj1 R)); exact Vq|]. exists p, r. apply (Permutation_in _ (obs_edges _ _ (proj1 R))), I. }
          destruct Ex as [r' I']. apply (Permutation_in _ (Permutation_sym (obs_edges _ _ (proj1 R)))) in I'. destruct (IH r') as [t' P']; [apply (delta_in g s R q a r'), (delta_edges g s R), I'|]. exists t'. econstructor; [exact I'|exact P'].
        - destruct (CO t Vt) as (w' & t' & P' & FT). destruct (H (w ++ w')) as (t2 & P2 & _).
          + exists t'. split; [|exact FT]. clear -P P'. induction P; cbn; [exact P'|]. econstructor; eauto.
          + clear -P2. revert q P2. induction w as [|a w IH]; intros q P2; [exists q; constructor|]. cbn in P2. inversion P2 as [|? ? x ? ? I P3]; subst. destruct (IH x P3) as [r P]. exists r. econstructor; eassumption. }
      intros w. split; [apply HA|]. split; apply RD; auto; intros w'; apply HA.
  Qed.
  (** When the automaton has both final and non-final states and its initial state is one of its vertices, hopcroft_minimize returns an automaton with the same language; its states are the classes of the
      states of g for the relation "accept the same words and read the same words". They accept pairwise different languages when g is complete, or when every state of g accepts a word. *)
  Theorem C47_hopcroft_minimize_partial n (ops : list (aop A)) fuel : disciplined (aa_init n) ops ->
    let g := fst (runs IA_call (IA_init n) ops) in
    (exists q, In q (IA_vertices g) /\ A_is_final (ia_base g) q = true) -> (exists q, In q (IA_vertices g) /\ A_is_final (ia_base g) q = false) ->
    (exists q, In q (IA_vertices g) /\ A_initial (ia_base g) = Some q) -> length (IA_vertices g) <= fuel ->
    exists g' cls, hopcroft_minimize fuel g ord_w ord_p ord_a ord_l ord_q = Some (g', Ok tt) /\
      (exists q, A_initial (ia_base g') = Some q /\ (forall q0, A_initial (ia_base g) = Some q0 -> cls q0 = q) /\ wf_dfa (ia_dfa g' q) /\ forall w, A_accepts (ia_base g') w = true <-> language (ia_dfa g' q) w) /\
      (forall w, A_accepts (ia_base g') w = A_accepts (ia_base g) w) /\
      (forall q, In q (IA_vertices g) -> In (cls q) (IA_vertices g') /\ forall w, (accepted g' (cls q) w <-> accepted g q w) /\ (readable (IA_edges g') (cls q) w <-> readable (IA_edges g) q w)) /\
      (forall i, In i (IA_vertices g') -> exists q, In q (IA_vertices g) /\ cls q = i) /\
      (forall p q, In p (IA_vertices g) -> In q (IA_vertices g) ->
        (cls p = cls q <-> forall w, (accepted g p w <-> accepted g q w) /\ (readable (IA_edges g) p w <-> readable (IA_edges g) q w))) /\
      (A_is_complete (ia_base g) = true \/ (forall q, In q (IA_vertices g) -> exists w, accepted g q w) ->
        forall i j, In i (IA_vertices g') -> In j (IA_vertices g') -> (forall w, accepted g' i w <-> accepted g' j w) -> i = j).
  Proof using OW OP OA OL OQ.
    intros D g HF HN HQ LF. destruct (iarep_runs ops _ _ (iarep_init n) D) as [R _]. destruct (hopcroft_rep g _ fuel R HF HN HQ LF) as (g' & cls & s' & _ & H). exists g', cls. exact H.
  Qed.

  (** As soon as there is a transition, hopcroft_minimize raises TypeError on every automaton whose states are all final, or all non-final. *)
  Theorem C47_crash n (ops : list (aop A)) fuel : disciplined (aa_init n) ops ->
    let g := fst (runs IA_call (IA_init n) ops) in
    IA_edges g <> [] -> length (IA_vertices g) < fuel ->
    (forall q, In q (IA_vertices g) -> A_is_final (ia_base g) q = true) \/ (forall q, In q (IA_vertices g) -> A_is_final (ia_base g) q = false) ->
    hopcroft_minimize fuel g ord_w ord_p ord_a ord_l ord_q = Some (g, Raise TypeError).
  Proof using OW OP OA.
    intros D g NEd LF HF. destruct (iarep_runs ops _ _ (iarep_init n) D) as [R _]. fold g in R. set (s := fst (runs ia_step (aa_init n) ops)) in R. clearbody g s.
    assert (EE : exists q r a, In (Edge q r a) (aa_T s)).
    { destruct (IA_edges g) as [|[q r a] es] eqn:E; [congruence|]. exists q, r, a. apply (Permutation_in _ (obs_edges _ _ (proj1 R))). change (A_edges (ia_base g)) with (IA_edges g). rewrite E. left. reflexivity. }
    destruct EE as (q & r & a & I). assert (NV : IA_vertices g <> []).
    { intros E. destruct (iarep_closed g s R q r a I) as [Vq _]. rewrite <- (obs_vertices _ _ (proj1 R)) in Vq. change (A_vertices (ia_base g)) with (IA_vertices g) in Vq. rewrite E in Vq. destruct Vq. }
    unfold hopcroft_minimize. rewrite (agglomerate_crash g s R fuel ord_w ord_p ord_a OW OP OA LF NV); [destruct (IA_vertices g); [congruence|reflexivity]| |exact HF].
    intros E. assert (IA : In a (A_alphabet (ia_base g))) by (apply (obs_alphabet _ _ (proj1 R)); exists q, r; exact I). rewrite E in IA. destruct IA.
  Qed.
End A.
Print Assumptions C47_hopcroft_minimize_partial.
Print Assumptions C47_crash.

Definition ido {X} : set_order X := fun _ l => l.

(** The call fails on 0 -7-> 1 when both states are final. *)
Theorem C47_crash_refuted : exists ops : list (aop nat), disciplined (aa_init 2) ops /\
  exists g', hopcroft_minimize 3 (fst (runs IA_call (IA_init 2) ops)) ido (fun _ => ido) ido ido (fun B => B) = Some (g', Raise TypeError).
Proof. exists [AAddEdge 0 1 7; ASetFinal 0 true; ASetFinal 1 true]. split; [cbn; intuition discriminate|]. eexists. vm_compute. reflexivity. Qed.
Print Assumptions C47_crash_refuted.

(** Dead states are not merged: 0 -7-> 1 and 2 final. The three states remain although no word is accepted from two of them. *)
Theorem C47_dead_states_refuted : exists (ops : list (aop nat)) g', disciplined (aa_init 3) ops /\
  hopcroft_minimize 3 (fst (runs IA_call (IA_init 3) ops)) ido (fun _ => ido) ido ido (fun B => B) = Some (g', Ok tt) /\
  exists i j, In i (IA_vertices g') /\ In j (IA_vertices g') /\ i <> j /\ forall w, ~ accepted g' i w /\ ~ accepted g' j w.
Proof.
  exists [AAddEdge 0 1 7; ASetFinal 2 true]. eexists. split; [cbn; intuition discriminate|]. split; [vm_compute; reflexivity|].
  match goal with |- context[IA_vertices ?x] => set (g := x) end.
  assert (ED : forall q r a, In (Edge q r a) (IA_edges g) -> q = 0 /\ r = 2) by (intros q r a I; vm_compute in I; destruct I as [I|[]]; injection I as <- <- <-; auto).
  exists 0, 2. split; [vm_compute; auto|]. split; [vm_compute; auto|]. split; [discriminate|].
  assert (D2 : forall w, ~ accepted g 2 w).
  { intros w (t & P & F). inversion P as [|? ? x ? ? I P']; subst; [vm_compute in F; discriminate|]. apply ED in I. destruct I. discriminate. }
  intros w. split; [|apply D2]. intros (t & P & F). inversion P as [|? ? x ? ? I P']; subst; [vm_compute in F; discriminate|]. apply ED in I. destruct I as [_ ->]. eapply D2. exists t. eauto.
Qed.
Print Assumptions C47_dead_states_refuted.

(** With no transition and no final state, an extra state is created. *)
Theorem C47_empty_group_refuted : exists g', hopcroft_minimize 3 (IA_init (A := nat) 1) ido (fun _ => ido) ido ido (fun B => B) = Some (g', Ok tt) /\ IA_vertices g' = [0; 1] /\
  forall i w, ~ accepted g' i w.
Proof.
  eexists. split; [vm_compute; reflexivity|]. split; [reflexivity|]. intros i w (t & P & F). cbn in F. destruct t as [|[|t]]; cbn in F; try discriminate. destruct t; discriminate.
Qed.
Print Assumptions C47_empty_group_refuted.

(** 0 -1-> 1, 0 -2-> 2, 1 -3-> 3, 2 -3-> 4, 3 -3-> 3, 4 -3-> 4; 3 and 4 final: 1 and 2, and 3 and 4, are merged. *)
Definition ex_ops : list (aop nat) :=
  [AAddEdge 0 1 1; AAddEdge 0 2 2; AAddEdge 1 3 3; AAddEdge 2 4 3; AAddEdge 3 3 3; AAddEdge 4 4 3; ASetFinal 3 true; ASetFinal 4 true].
Definition ex_g : iaut nat := fst (runs IA_call (IA_init 5) ex_ops).
Example C47_example : match hopcroft_minimize 5 ex_g ido (fun _ => ido) ido ido (fun B => B) with
  | Some (g', Ok _) => IA_vertices g' = [0; 1; 2] /\ length (IA_edges g') = 4 /\ A_accepts (ia_base g') [2; 3; 3] = true
  | _ => False
  end.
Proof. vm_compute. auto. Qed.
Example ex_disciplined : disciplined (aa_init 5) ex_ops.
Proof. cbn. intuition discriminate. Qed.
Example ex_coaccessible : forall q, In q (IA_vertices ex_g) -> exists w, accepted ex_g q w.
Proof.
  intros q Vq. vm_compute in Vq.
  assert (E : forall e, In e [Edge 0 1 1; Edge 1 3 3; Edge 2 4 3] -> In e (IA_edges ex_g)) by (intros e I; vm_compute; cbn in I; tauto).
  destruct Vq as [<-|[<-|[<-|[<-|[<-|[]]]]]].
  - exists [1; 3], 3. split; [|reflexivity]. apply (path_cons _ 0 1 1); [apply E; cbn; auto|]. apply (path_cons _ 1 3 3); [apply E; cbn; auto|]. constructor.
  - exists [3], 3. split; [|reflexivity]. apply (path_cons _ 1 3 3); [apply E; cbn; auto|]. constructor.
  - exists [3], 4. split; [|reflexivity]. apply (path_cons _ 2 3 4); [apply E; cbn; auto|]. constructor.
  - exists [], 3. split; [constructor|reflexivity].
  - exists [], 4. split; [constructor|reflexivity].
Qed.
Example C47_example_applies : exists g', exists cls : nat -> nat, (forall q, In q (IA_vertices ex_g) -> forall w, accepted g' (cls q) w <-> accepted ex_g q w) /\ hopcroft_minimize 5 ex_g ido (fun _ => ido) ido ido (fun B => B) = Some (g', Ok tt) /\
  (forall w, A_accepts (ia_base g') w = A_accepts (ia_base ex_g) w) /\
  forall i j, In i (IA_vertices g') -> In j (IA_vertices g') -> (forall w, accepted g' i w <-> accepted g' j w) -> i = j.
Proof.
  assert (VO : forall X, valid_order (@ido X)) by (intros X n l; reflexivity).
  destruct (C47_hopcroft_minimize_partial ido (fun _ => ido) ido ido (fun B => B) (VO _) (fun _ => VO _) (VO _) (VO _) (fun B => Permutation_refl B) 5 ex_ops 5 ex_disciplined) as (g' & cls & E & _ & L & S1 & S2 & S3 & M).
  - exists 3. vm_compute. auto 10.
  - exists 0. vm_compute. auto.
  - exists 0. vm_compute. auto.
  - vm_compute. lia.
  - exists g', cls. split; [intros q Vq w; apply S1, Vq|]. split; [exact E|]. split; [exact L|].
    apply M. right. exact ex_coaccessible.
Qed.
