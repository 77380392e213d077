(** Lemmas on hopcroft_agglomerate_states. *)
From Verif Require Import Graph GraphProofs Automaton AutomatonSpec AutomatonProofs AutomatonProofs2 Revuz RevuzSpec RevuzProofs RevuzProofs2 Hopcroft Base BaseProofs.

Section P.
  Context {A : Type} {EA : EqDec A}.
  Variables (g : iaut A) (s : aaut A).
  Hypothesis R : iarep g s.
  Notation V := (IA_vertices g).
  Notation delta := (A_delta (ia_base g)).
  Notation blk := (list nat).

  Lemma delta_edges q a r : delta q a = Some r <-> In (Edge q r a) (IA_edges g).
  Proof. apply (obs_delta_edges _ _ (proj1 R)). Qed.
  Lemma delta_in q a r : delta q a = Some r -> In q V /\ In r V.
  Proof.
    intros E. apply delta_edges in E. unfold IA_vertices. rewrite (obs_vertices _ _ (proj1 R)). apply (Permutation_in _ (obs_edges _ _ (proj1 R))) in E. apply (iarep_closed g s R _ _ _ E).
  Qed.
  Lemma preds_spec a r q : In q (preds g a r) <-> delta q a = Some r.
  Proof.
    unfold preds. rewrite In_sof, in_map_iff. split.
    - intros ([p t b] & E & I). cbn in E. subst p. apply filter_In in I. destruct I as [I E]. cbn in E. destruct (eqb_spec b a) as [->|]; [|discriminate]. apply (In_obs_in g s r _ R) in I. cbn in I. destruct I as [-> I]. apply delta_edges, (Permutation_in _ (Permutation_sym (obs_edges _ _ (proj1 R)))), I.
    - intros E. exists (Edge q r a). split; [reflexivity|]. apply filter_In. split; [|apply eqb_refl]. apply (In_obs_in g s r _ R). split; [reflexivity|]. apply delta_edges, (Permutation_in _ (obs_edges _ _ (proj1 R))) in E. exact E.
  Qed.
  (** the states whose successor by a is in a group *)
  Definition oin (o : option nat) (B : blk) : Prop := exists q, o = Some q /\ In q B.
  Lemma union_preds_spec a c : c <> [] -> exists x, union_preds g a c = Ok x /\ forall q, In q x <-> oin (delta q a) c.
  Proof.
    destruct c as [|r c]; [congruence|]. intros _. eexists. split; [reflexivity|]. intros q.
    assert (G : forall c u, In q (fold_left (fun u r => sunion u (preds g a r)) c u) <-> In q u \/ oin (delta q a) c).
    { clear c r. induction c as [|r c IH]; intros u; cbn [fold_left]; [split; [auto|intros [H|(x & _ & [])]; exact H]|]. rewrite IH, In_sunion, preds_spec. unfold oin. cbn [In]. split.
      - intros [[H|H]|(x & E & I)]; [auto|right; exists r; auto|right; exists x; auto].
      - intros [H|(x & E & [<-|I])]; [auto|auto|right; exists x; auto]. }
    rewrite G, preds_spec. unfold oin. cbn [In]. split.
    - intros [H|(x & E & I)]; [exists r; auto|exists x; auto].
    - intros (x & E & [<-|I]); [auto|right; exists x; auto].
  Qed.

  (** Equality of the accepted words and of the readable words *)
  Definition same (x y : nat) : Prop := forall w,
    (right (IA_edges g) (A_is_final (ia_base g)) x w <-> right (IA_edges g) (A_is_final (ia_base g)) y w) /\ (readable (IA_edges g) x w <-> readable (IA_edges g) y w).
  Lemma same_sym x y : same x y -> same y x. Proof. intros H w. destruct (H w). tauto. Qed.
  Lemma same_final x y : same x y -> A_is_final (ia_base g) x = A_is_final (ia_base g) y.
  Proof.
    intros H. destruct (H []) as [F _]. assert (RN : forall q, right (IA_edges g) (A_is_final (ia_base g)) q [] <-> A_is_final (ia_base g) q = true).
    { intros q. split; [intros (r & P & E); inversion P; subst; exact E|intros E; exists q; split; [constructor|exact E]]. }
    rewrite !RN in F. apply eq_iff_eq_true. exact F.
  Qed.
  Lemma right_step q a r w : delta q a = Some r -> right (IA_edges g) (A_is_final (ia_base g)) q (a :: w) <-> right (IA_edges g) (A_is_final (ia_base g)) r w.
  Proof.
    intros E. split.
    - intros (t & P & F). inversion P as [|? ? x ? ? I P']; subst. apply delta_edges in I. rewrite I in E. injection E as ->. exists t. auto.
    - intros (t & P & F). exists t. split; [econstructor; [apply delta_edges, E|exact P]|exact F].
  Qed.
  Lemma readable_step q a r w : delta q a = Some r -> readable (IA_edges g) q (a :: w) <-> readable (IA_edges g) r w.
  Proof.
    intros E. split.
    - intros (t & P). inversion P as [|? ? x ? ? I P']; subst. apply delta_edges in I. rewrite I in E. injection E as ->. exists t. exact P'.
    - intros (t & P). exists t. econstructor; [apply delta_edges, E|exact P].
  Qed.
  Lemma same_step x y a r : same x y -> delta x a = Some r -> exists r', delta y a = Some r' /\ same r r'.
  Proof.
    intros H E. destruct (H [a]) as [_ [H1 _]]. destruct H1 as (t & P); [exists r; econstructor; [apply delta_edges, E|constructor]|]. inversion P as [|? ? r' ? ? I P']; subst. apply delta_edges in I. exists r'. split; [exact I|].
    intros w. destruct (H (a :: w)) as [H2 H3]. rewrite (right_step x a r w E), (right_step y a r' w I) in H2. rewrite (readable_step x a r w E), (readable_step y a r' w I) in H3. tauto.
  Qed.
  Definition closed (B : blk) : Prop := forall x y, same x y -> In y V -> In x B -> In y B.
  Lemma closed_preds a c x : closed c -> (forall q, In q x <-> oin (delta q a) c) -> closed x.
  Proof.
    intros C HX p q S Vq I. apply HX in I. destruct I as (r & E & I). apply HX. destruct (same_step p q a r S E) as (r' & E' & S'). exists r'. split; [exact E'|]. apply (C r r' S'); [apply (delta_in _ _ _ E')|exact I].
  Qed.

  (** ** The invariant *)
  Definition sep (B : blk) (o o' : option nat) : Prop := (oin o B /\ ~ oin o' B) \/ (oin o' B /\ ~ oin o B).
  Lemma oin_dec o B : {oin o B} + {~ oin o B}.
  Proof. destruct o as [q|]; [|right; intros (x & E & _); discriminate]. destruct (in_dec Nat.eq_dec q B); [left; exists q; auto|right; intros (x & [= <-] & I); contradiction]. Qed.
  Record part (P : list blk) : Prop := {
    p_nodup : NoDup P;
    p_disj : forall B B' q, In B P -> In B' P -> In q B -> In q B' -> B = B';
    p_cover : forall q, In q V <-> exists B, In B P /\ In q B }.
  Record J (P W : list blk) (pend : A -> nat -> nat -> Prop) : Prop := {
    j_part : part P;
    j_W : NoDup W /\ incl W P;
    j_closed : forall B, In B P -> closed B;
    j_final : forall B x y, In B P -> In x B -> In y B -> A_is_final (ia_base g) x = A_is_final (ia_base g) y;
    j_good : forall B x y a, In B P -> In x B -> In y B -> (exists C, In C P /\ sep C (delta x a) (delta y a)) -> (exists C, In C W /\ sep C (delta x a) (delta y a)) \/ pend a x y }.

  Lemma len_srem {X} {EX : EqDec X} (y : X) (l : list X) : NoDup l -> In y l -> S (length (srem y l)) = length l.
  Proof.
    intros N I. assert (length (y :: srem y l) <= length l).
    { apply NoDup_incl_length; [constructor; [rewrite In_srem; tauto|apply NoDup_srem, N]|]. intros z [<-|J0]; [exact I|]. apply In_srem in J0. tauto. }
    assert (length l <= length (y :: srem y l)).
    { apply NoDup_incl_length; [exact N|]. intros z J0. destruct (eqb_spec z y) as [->|NE]; [left; reflexivity|right; apply In_srem; auto]. }
    cbn in *. lia.
  Qed.
  Definition homog (x : list nat) (B : blk) : Prop := (forall q, In q B -> In q x) \/ (forall q, In q B -> ~ In q x).
  Lemma split_spec x P W pend y : J P W pend -> In y P -> closed x ->
    exists P' W', split_group x (P, W) y = ((P', W'), Ok tt) /\ J P' W' pend /\ length W' + length P <= length W + length P' /\
      (forall B, In B P -> B <> y -> In B P') /\ (forall B, In B P' -> (In B P /\ B <> y) \/ homog x B) /\ (In [] P -> In [] P') /\ (In [] P' -> In [] P) /\ (In [] W <-> In [] W').
  Proof.
    intros [JP [WN WI] JC JF JG] Iy Cx. unfold split_group.
    assert (I1 : forall q, In q (sinter y x) <-> In q y /\ In q x) by (intros; apply In_sinter). assert (I2 : forall q, In q (sdiff y x) <-> In q y /\ ~ In q x) by (intros; apply In_sdiff).
    remember (sinter y x) as y1. remember (sdiff y x) as y2. clear Heqy1 Heqy2.
    destruct ((0 <? length y1) && (0 <? length y2)) eqn:E.
    2: { exists P, W. split; [reflexivity|]. split; [split; auto|]. split; [lia|]. split; [auto|]. split; [|split; [auto|split; [auto|tauto]]].
      intros B IB. destruct (eqb_spec B y) as [->|N]; [right|auto]. apply andb_false_iff in E. rewrite !Nat.ltb_ge in E. destruct E as [E|E].
      - right. intros q Iq Ix. assert (H : In q y1) by (apply I1; auto). destruct y1; [destruct H|cbn in E; lia].
      - left. intros q Iq. destruct (in_dec Nat.eq_dec q x) as [Ix|Nx]; [exact Ix|]. assert (H : In q y2) by (apply I2; auto). destruct y2; [destruct H|cbn in E; lia]. }
    apply andb_true_iff in E. rewrite !Nat.ltb_lt in E. destruct E as [E1 E2].
    assert (N1 : exists q, In q y1) by (destruct y1 as [|q ?]; [cbn in E1; lia|exists q; left; reflexivity]). assert (N2 : exists q, In q y2) by (destruct y2 as [|q ?]; [cbn in E2; lia|exists q; left; reflexivity]).
    destruct N1 as [e1 N1], N2 as [e2 N2].
    rewrite (proj2 (mem_spec y P) Iy).
    set (P' := sunion (srem y P) [y1; y2]). set (W' := if mem y W then sunion (srem y W) [y1; y2] else if length y1 <=? length y2 then sadd y1 W else sadd y2 W).
    assert (IP : forall B, In B P' <-> (B <> y /\ In B P) \/ B = y1 \/ B = y2) by (intros B; unfold P'; rewrite In_sunion, In_srem; cbn [In]; intuition congruence).
    destruct JP as [PN PD PC].
    assert (D1 : ~ In y1 P) by (intros I; pose proof (proj1 (I1 _) N1) as [Q1 Q2]; pose proof (PD y1 y e1 I Iy N1 Q1) as ->; apply I2 in N2; destruct N2 as [N2 N3]; apply I1 in N2; tauto).
    assert (D2 : ~ In y2 P) by (intros I; pose proof (proj1 (I2 _) N2) as [Q1 Q2]; pose proof (PD y2 y e2 I Iy N2 Q1) as ->; apply I1 in N1; destruct N1 as [N1 N3]; apply I2 in N1; tauto).
    assert (D12 : y1 <> y2) by (intros E; rewrite E in N1; apply I2 in N1; rewrite E in I1; pose proof (proj1 (I1 _) N2); apply I2 in N2; tauto).
    assert (IW : forall B, In B W' -> (B <> y /\ In B W) \/ B = y1 \/ B = y2).
    { intros B. unfold W'. destruct (mem_reflect y W) as [M|M]; [rewrite In_sunion, In_srem; cbn [In]; intuition congruence|]. destruct (length y1 <=? length y2); rewrite In_sadd; intros [->|I]; auto; left; split; auto; intros ->; contradiction. }
    assert (WK : forall B, B <> y -> In B W -> In B W').
    { intros B N I. unfold W'. destruct (mem_reflect y W) as [M|M]; [rewrite In_sunion, In_srem; auto|]. destruct (length y1 <=? length y2); apply In_sadd; auto. }
    assert (WNEW : In y1 W' \/ In y2 W').
    { unfold W'. destruct (mem_reflect y W) as [M|M]; [left; rewrite In_sunion; cbn; auto|]. destruct (length y1 <=? length y2); rewrite !In_sadd; auto. }
    assert (WBOTH : In y W -> In y1 W' /\ In y2 W') by (intros M; unfold W'; rewrite (proj2 (mem_spec y W) M), !In_sunion; cbn; auto).
    assert (WN' : NoDup W') by (unfold W'; destruct (mem y W); [apply NoDup_sunion, NoDup_srem, WN|]; destruct (length y1 <=? length y2); apply NoDup_sadd, WN).
    assert (PN' : NoDup P') by (apply NoDup_sunion, NoDup_srem, PN).
    assert (REF : forall B, In B P' -> exists B0, In B0 P /\ incl B B0).
    { intros B I. apply IP in I. destruct I as [[_ I]|[->| ->]]; [exists B; split; [exact I|intros ?; auto]|exists y; split; [exact Iy|]..]; intros q Iq; [apply I1 in Iq|apply I2 in Iq]; tauto. }
    exists P', W'. split; [reflexivity|]. split; [split|].
    - split; [exact PN'| |].
      + intros B B' q IB IB' Iq Iq'. apply IP in IB, IB'.
        destruct IB as [[NB IB]|[->| ->]], IB' as [[NB' IB']|[->| ->]]; try reflexivity; try (apply (PD B B' q); assumption); exfalso; try apply I1 in Iq; try apply I2 in Iq; try apply I1 in Iq'; try apply I2 in Iq'; try tauto.
        all: first [apply NB, (PD B y q); tauto|apply NB', (PD B' y q); tauto].
      + intros q. rewrite PC. split.
        * intros (B & IB & Iq). destruct (eqb_spec B y) as [->|NB]; [|exists B; split; [apply IP; auto|exact Iq]]. destruct (in_dec Nat.eq_dec q x); [exists y1; split; [apply IP; auto|apply I1; auto]|exists y2; split; [apply IP; auto|apply I2; auto]].
        * intros (B & IB & Iq). destruct (REF B IB) as (B0 & I0 & INC). exists B0. auto.
    - split; [exact WN'|]. intros B I. apply IP. apply IW in I. destruct I as [[NB I]|[->| ->]]; auto.
    - intros B I. apply IP in I. destruct I as [[_ I]|[->| ->]]; [apply JC, I| |]; intros p q S Vq Ip.
      + apply I1. apply I1 in Ip. destruct Ip as [Ip Ix]. split; [apply (JC y Iy p q S Vq Ip)|apply (Cx p q S Vq Ix)].
      + apply I2. apply I2 in Ip. destruct Ip as [Ip Ix]. split; [apply (JC y Iy p q S Vq Ip)|]. intros Ix'. apply Ix. apply (Cx q p (same_sym _ _ S)); [apply PC; exists y; auto|exact Ix'].
    - intros B p q I Ip Iq. destruct (REF B I) as (B0 & I0 & INC). apply (JF B0); auto.
    - intros B p q a I Ip Iq (C & IC & SC). destruct (REF B I) as (B0 & I0 & INC).
      set (o := delta p a) in *. set (o' := delta q a) in *.
      assert (OLD : (exists C, In C P /\ sep C o o') -> (exists C, In C W' /\ sep C o o') \/ pend a p q).
      { intros H. destruct (JG B0 p q a I0 (INC _ Ip) (INC _ Iq) H) as [(D & ID & SD)|H']; [left|auto]. destruct (eqb_spec D y) as [->|ND]; [|exists D; auto].
        destruct (WBOTH ID) as [B1 B2]. assert (HS : forall o o', oin o y -> ~ oin o' y -> (oin o y1 \/ oin o y2) /\ ~ oin o' y1 /\ ~ oin o' y2).
        { intros u u' (z & -> & Iz) N. split; [destruct (in_dec Nat.eq_dec z x); [left|right]; exists z; split; [reflexivity|apply I1; auto|reflexivity|apply I2; auto]|]. split; intros (z' & -> & Iz'); apply N; exists z'; split; try reflexivity; [apply I1 in Iz'|apply I2 in Iz']; tauto. }
        destruct SD as [[S1 S2]|[S1 S2]]; destruct (HS _ _ S1 S2) as ([S3|S3] & S4 & S5); [exists y1|exists y2|exists y1|exists y2]; unfold sep; auto. }
      apply IP in IC. destruct IC as [[_ IC]|IC]; [apply OLD; exists C; auto|].
      destruct (oin_dec o y) as [Oy|Oy], (oin_dec o' y) as [Oy'|Oy'].
      + left. assert (HS : forall o, oin o y -> (oin o y1 /\ ~ oin o y2) \/ (oin o y2 /\ ~ oin o y1)).
        { intros u (z & -> & Iz). destruct (in_dec Nat.eq_dec z x) as [Ix|Nx]; [left|right]; (split; [exists z; split; [reflexivity|]|intros (z' & [= <-] & Iz')]); [apply I1; auto|apply I2 in Iz'; tauto|apply I2; auto|apply I1 in Iz'; tauto]. }
        pose proof (HS _ Oy). pose proof (HS _ Oy'). assert (SB : sep y1 o o' /\ sep y2 o o') by (unfold sep in *; destruct IC as [->| ->]; tauto). destruct WNEW; [exists y1|exists y2]; tauto.
      + apply OLD. exists y. unfold sep. auto.
      + apply OLD. exists y. unfold sep. auto.
      + exfalso. assert (HS : forall u, ~ oin u y -> ~ oin u C) by (intros u N (z & -> & Iz); apply N; exists z; split; [reflexivity|]; destruct IC as [->| ->]; [apply I1 in Iz|apply I2 in Iz]; tauto). pose proof (HS _ Oy). pose proof (HS _ Oy'). unfold sep in SC. tauto.
    - split; [|split; [|split; [|split; [|split]]]].
      + assert (LP : length (y1 :: y2 :: srem y P) <= length P').
        { apply NoDup_incl_length; [|intros B [<-|[<-|I]]; apply IP; [auto|auto|apply In_srem in I; tauto]]. constructor; [cbn; rewrite In_srem; intuition congruence|]. constructor; [rewrite In_srem; tauto|apply NoDup_srem, PN]. }
        pose proof (len_srem y P PN Iy). cbn [length] in LP. assert (LW : length W' <= S (length W)); [|lia].
        unfold W' in *. destruct (mem_reflect y W) as [M|M].
        * pose proof (len_srem y W WN M). assert (length (sunion (srem y W) [y1; y2]) <= length (y1 :: y2 :: srem y W)); [|cbn in *; lia]. apply NoDup_incl_length; [exact WN'|]. intros B I. apply In_sunion in I. cbn in *. intuition.
        * destruct (length y1 <=? length y2); unfold sadd; match goal with |- context[mem ?z W] => destruct (mem z W) end; rewrite ?app_length; cbn; lia.
      + intros B I NB. apply IP. auto.
      + intros B I. apply IP in I. destruct I as [[NB I]|[->| ->]]; [auto|right; left; intros q Iq; apply I1 in Iq; tauto|right; right; intros q Iq; apply I2 in Iq; tauto].
      + intros I. apply IP. left. split; [intros <-; apply I1 in N1; destruct N1 as [[] _]|exact I].
      + intros I. apply IP in I. destruct I as [[_ I]|[<-|<-]]; [exact I|destruct N1|destruct N2].
      + split; intros I; [apply WK; [intros <-; apply I1 in N1; destruct N1 as [[] _]|exact I]|]. apply IW in I. destruct I as [[_ I]|[<-|<-]]; [exact I|destruct N1|destruct N2].
  Qed.

  Lemma splits_spec x pend L : closed x -> forall P W, J P W pend -> NoDup L -> incl L P -> (forall B, In B P -> In B L \/ homog x B) ->
    exists P' W', foreach (split_group x) (P, W) L = ((P', W'), Ok tt) /\ J P' W' pend /\ length W' + length P <= length W + length P' /\ (forall B, In B P' -> homog x B) /\ (In [] P <-> In [] P') /\ (In [] W <-> In [] W').
  Proof.
    intros Cx. induction L as [|y L IH]; intros P W HJ N INC HH; cbn [foreach].
    - exists P, W. split; [reflexivity|]. split; [exact HJ|]. split; [lia|]. split; [intros B I; destruct (HH B I) as [[]|H]; exact H|]. split; tauto.
    - inversion N as [|? ? N1 N2]; subst. destruct (split_spec x P W pend y HJ (INC y (or_introl eq_refl)) Cx) as (P1 & W1 & -> & J1 & M1 & K1 & K2 & K3 & K4 & K5).
      destruct (IH P1 W1 J1 N2) as (P2 & W2 & -> & J2 & M2 & H2 & H3 & H4).
      + intros B I. apply K1; [apply INC; right; exact I|]. intros ->. contradiction.
      + intros B I. destruct (K2 B I) as [[I' NB]|H]; [|auto]. destruct (HH B I') as [[->|H]|H]; [congruence|auto|auto].
      + exists P2, W2. split; [reflexivity|]. split; [exact J2|]. split; [lia|]. split; [exact H2|]. split; [split; intros H; [apply H3, K3, H|apply K4, H3, H]|rewrite K5; exact H4].
  Qed.

  (** [pending c l]: the pairs that the group c distinguishes by one of the letters l *)
  Definition pending (c : blk) (l : list A) : A -> nat -> nat -> Prop := fun a x y => In a l /\ sep c (delta x a) (delta y a).
  Lemma J_weaken P W (p p' : A -> nat -> nat -> Prop) : J P W p -> (forall B a x y, In B P -> In x B -> In y B -> p a x y -> p' a x y) -> J P W p'.
  Proof. intros [H1 H2 H3 H4 H5] H. split; auto. intros B x y a I Ix Iy SP. destruct (H5 B x y a I Ix Iy SP); [auto|right; eapply H; eassumption]. Qed.
  Lemma letters_spec ord c : valid_order ord -> closed c -> c <> [] -> forall l P W, J P W (pending c l) ->
    exists P' W', letters g ord c l P W = Ok (P', W') /\ J P' W' (fun _ _ _ => False) /\ length W' + length P <= length W + length P' /\ (In [] P <-> In [] P') /\ (In [] W <-> In [] W').
  Proof.
    intros O Cc Nc. induction l as [|a l IH]; intros P W HJ; cbn [letters].
    - exists P, W. split; [reflexivity|]. split; [apply (J_weaken _ _ _ _ HJ); intros B a x y _ _ _ [[] _]|]. split; [lia|]. split; tauto.
    - destruct (union_preds_spec a c Nc) as (x & -> & HX). destruct (splits_spec x (pending c (a :: l)) (ord (length l) P) (closed_preds a c x Cc HX) P W HJ) as (P1 & W1 & -> & J1 & M1 & H1 & H2 & H3).
      + apply (Permutation_NoDup (Permutation_sym (O _ _))). apply (p_nodup _ (j_part _ _ _ HJ)).
      + intros B I. apply (Permutation_in _ (O (length l) P)), I.
      + intros B I. left. apply (Permutation_in _ (Permutation_sym (O (length l) P))), I.
      + destruct (IH P1 W1) as (P2 & W2 & E & J2 & M2 & H4 & H5).
        * apply (J_weaken _ _ _ _ J1). intros B b p q I Ip Iq [[<-|Ib] SB]; [|split; assumption]. exfalso. destruct (H1 B I) as [H|H]; pose proof (H p Ip) as Hp; pose proof (H q Iq) as Hq; rewrite HX in Hp, Hq; unfold sep in SB; tauto.
        * exists P2, W2. split; [exact E|]. split; [exact J2|]. split; [lia|]. split; [rewrite H2; exact H4|rewrite H3; exact H5].
  Qed.

  Lemma part_length P : part P -> ~ In [] P -> length P <= length V.
  Proof.
    intros [N D C] NE. rewrite <- (map_length (hd 0) P). apply NoDup_incl_length.
    - assert (H : forall B, In B P -> In (hd 0 B) B) by (intros B I; destruct B; [contradiction|left; reflexivity]). clear C NE. induction P as [|B P IH]; cbn; [constructor|]. inversion N; subst. constructor.
      + intros I. apply in_map_iff in I. destruct I as (B' & E & I). assert (B = B'); [|congruence]. apply (D B B' (hd 0 B)); [left; reflexivity|right; exact I|apply H; left; reflexivity|rewrite <- E; apply H; right; exact I].
      + apply IH; [assumption|intros B1 B2 q ? ?; apply D; right; assumption|intros B' I; apply H; right; exact I].
    - intros q I. apply in_map_iff in I. destruct I as (B & <- & I). apply C. exists B. split; [exact I|]. destruct B; [contradiction|left; reflexivity].
  Qed.
  Lemma pop_J ord_a P W c : valid_order ord_a -> forall f, J P W (fun _ _ _ => False) -> In c W -> J P (srem c W) (pending c (ord_a f (A_alphabet (ia_base g)))).
  Proof.
    intros O f [H1 [H2 H2'] H3 H4 H5] I. split; auto.
    - split; [apply NoDup_srem, H2|]. intros B IB. apply In_srem in IB. apply H2'. tauto.
    - intros B x y a IB Ix Iy SP. destruct (H5 B x y a IB Ix Iy SP) as [(C & IC & SC)|[]]. destruct (eqb_spec C c) as [->|N]; [|left; exists C; split; [apply In_srem; auto|exact SC]].
      right. split; [|exact SC]. apply (Permutation_in _ (Permutation_sym (O _ _))). apply (obs_alphabet _ _ (proj1 R)).
      assert (H : forall q, oin (delta q a) c -> exists q r, In (Edge q r a) (aa_T s)).
      { intros q (r & E & _). exists q, r. apply (Permutation_in _ (obs_edges _ _ (proj1 R))). apply delta_edges, E. }
      destruct SC as [[SC _]|[SC _]]; apply (H _ SC).
  Qed.
  Lemma loop_ok ord_w ord_p ord_a : valid_order ord_w -> (forall n, valid_order (ord_p n)) -> valid_order ord_a -> forall fuel P W, J P W (fun _ _ _ => False) -> ~ In [] P -> length W + length V <= fuel + length P ->
    exists P', hopcroft_loop fuel g ord_w ord_p ord_a P W = Some (Ok P') /\ J P' [] (fun _ _ _ => False) /\ ~ In [] P'.
  Proof.
    intros OW OP OA. induction fuel as [|fuel IH]; intros P W HJ NE F.
    - pose proof (part_length P (j_part _ _ _ HJ) NE). destruct W as [|w W]; [|cbn in F; lia]. exists P. auto.
    - destruct W as [|w W]; [exists P; auto|]. cbn [hopcroft_loop]. pose proof (OW fuel (w :: W)) as PW. destruct (ord_w fuel (w :: W)) as [|c l]; [apply Permutation_nil in PW; discriminate|].
      assert (Ic : In c (w :: W)) by (apply (Permutation_in _ PW); left; reflexivity). destruct (j_W _ _ _ HJ) as [WN WI].
      destruct (letters_spec (ord_p fuel) c (OP fuel) (j_closed _ _ _ HJ c (WI c Ic))) with (l := ord_a fuel (A_alphabet (ia_base g))) (P := P) (W := srem c (w :: W)) as (P1 & W1 & -> & J1 & M1 & H1 & H2).
      + intros ->. apply NE, WI, Ic.
      + apply pop_J; assumption.
      + apply IH; [exact J1|rewrite <- H1; exact NE|]. pose proof (len_srem c (w :: W) WN Ic). cbn [length] in *. lia.
  Qed.
  Lemma loop_crash ord_w ord_p ord_a : valid_order ord_w -> (forall n, valid_order (ord_p n)) -> valid_order ord_a -> A_alphabet (ia_base g) <> [] -> forall fuel P W, J P W (fun _ _ _ => False) -> In [] W -> length W + length V < fuel + length P ->
    hopcroft_loop fuel g ord_w ord_p ord_a P W = Some (Raise TypeError).
  Proof.
    intros OW OP OA NA.
    assert (PL : forall P, part P -> length P <= S (length V)).
    { intros P HP. assert (HP' : part (srem [] P)).
      { destruct HP as [N D C]. split; [apply NoDup_srem, N|intros B B' q I I'; apply D; apply In_srem in I, I'; tauto|]. intros q. rewrite C. split; intros (B & I & Iq); exists B; (split; [|exact Iq]); [apply In_srem; split; [intros ->; destruct Iq|exact I]|apply In_srem in I; tauto]. }
      apply part_length in HP'; [|rewrite In_srem; tauto]. destruct (in_dec (eq_dec (A := blk)) [] P) as [I|I]; [rewrite <- (len_srem [] P (p_nodup _ HP) I); lia|rewrite srem_notin in HP' by exact I; lia]. }
    induction fuel as [|fuel IH]; intros P W HJ I0 F.
    - exfalso. pose proof (PL P (j_part _ _ _ HJ)). destruct W; [destruct I0|cbn in F; lia].
    - destruct W as [|w W]; [destruct I0|]. cbn [hopcroft_loop]. pose proof (OW fuel (w :: W)) as PW. destruct (ord_w fuel (w :: W)) as [|c l]; [apply Permutation_nil in PW; discriminate|].
      assert (Ic : In c (w :: W)) by (apply (Permutation_in _ PW); left; reflexivity). destruct (j_W _ _ _ HJ) as [WN WI].
      destruct (eqb_spec c []) as [->|Nc].
      + pose proof (OA fuel (A_alphabet (ia_base g))) as PA. destruct (ord_a fuel (A_alphabet (ia_base g))); [apply Permutation_nil in PA; congruence|]. reflexivity.
      + destruct (letters_spec (ord_p fuel) c (OP fuel) (j_closed _ _ _ HJ c (WI c Ic)) Nc (ord_a fuel (A_alphabet (ia_base g))) P (srem c (w :: W))) as (P1 & W1 & -> & J1 & M1 & H1 & H2); [apply pop_J; assumption|].
        apply IH; [exact J1| |].
        * apply H2, In_srem. split; [congruence|exact I0].
        * pose proof (len_srem c (w :: W) WN Ic). cbn [length] in *. lia.
  Qed.

  (** The initial groups *)
  Definition finals : blk := filter (A_is_final (ia_base g)) V.
  Definition groups0 : list blk := sunion [] [finals; sdiff V finals].
  Lemma In_groups0 B : In B groups0 <-> B = finals \/ B = sdiff V finals.
  Proof. unfold groups0. rewrite In_sunion. cbn [In]. intuition. Qed.
  Lemma J0 : V <> [] -> J groups0 groups0 (fun _ _ _ => False).
  Proof.
    intros NV. assert (I1 : forall q, In q finals <-> In q V /\ A_is_final (ia_base g) q = true) by (intros q; apply filter_In).
    assert (I2 : forall q, In q (sdiff V finals) <-> In q V /\ A_is_final (ia_base g) q = false) by (intros q; rewrite In_sdiff, I1; destruct (A_is_final (ia_base g) q); intuition discriminate).
    split.
    - split; [apply NoDup_sunion; constructor| |].
      + intros B B' q I I' Iq Iq'. apply In_groups0 in I, I'. destruct I as [->| ->], I' as [->| ->]; try reflexivity; exfalso; try (apply I1 in Iq; apply I2 in Iq'; destruct Iq, Iq'; congruence); apply I2 in Iq; apply I1 in Iq'; destruct Iq, Iq'; congruence.
      + intros q. split.
        * intros I. destruct (A_is_final (ia_base g) q) eqn:F; [exists finals; split; [apply In_groups0; auto|apply I1; auto]|exists (sdiff V finals); split; [apply In_groups0; auto|apply I2; auto]].
        * intros (B & I & Iq). apply In_groups0 in I. destruct I as [->| ->]; [apply I1 in Iq|apply I2 in Iq]; tauto.
    - split; [apply NoDup_sunion; constructor|intros B; auto].
    - intros B I x y S Vy Ix. apply same_final in S. apply In_groups0 in I. destruct I as [->| ->]; [apply I1; apply I1 in Ix|apply I2; apply I2 in Ix]; destruct Ix; split; congruence.
    - intros B x y I Ix Iy. apply In_groups0 in I. destruct I as [->| ->]; [apply I1 in Ix, Iy|apply I2 in Ix, Iy]; destruct Ix, Iy; congruence.
    - intros B x y a _ _ _ H. left. exact H.
  Qed.
  Lemma agglomerate_ok fuel ord_w ord_p ord_a : valid_order ord_w -> (forall n, valid_order (ord_p n)) -> valid_order ord_a -> length V <= fuel ->
    (exists q, In q V /\ A_is_final (ia_base g) q = true) -> (exists q, In q V /\ A_is_final (ia_base g) q = false) ->
    exists P, hopcroft_agglomerate_states fuel g ord_w ord_p ord_a = Some (Ok P) /\ J P [] (fun _ _ _ => False) /\ ~ In [] P.
  Proof.
    intros OW OP OA F (q1 & V1 & F1) (q2 & V2 & F2). apply loop_ok; auto.
    - apply J0. intros E. rewrite E in V1. destruct V1.
    - change (~ In [] groups0). rewrite In_groups0. intros [E|E].
      + assert (I : In q1 finals) by (apply filter_In; auto). rewrite <- E in I. destruct I.
      + assert (I : In q2 (sdiff V finals)) by (apply In_sdiff; split; [exact V2|]; intros I; apply filter_In in I; destruct I; congruence). rewrite <- E in I. destruct I.
    - lia.
  Qed.
  Lemma agglomerate_crash fuel ord_w ord_p ord_a : valid_order ord_w -> (forall n, valid_order (ord_p n)) -> valid_order ord_a -> length V < fuel -> V <> [] -> A_alphabet (ia_base g) <> [] ->
    (forall q, In q V -> A_is_final (ia_base g) q = true) \/ (forall q, In q V -> A_is_final (ia_base g) q = false) ->
    hopcroft_agglomerate_states fuel g ord_w ord_p ord_a = Some (Raise TypeError).
  Proof.
    intros OW OP OA F NV NA HF. apply loop_crash; auto.
    - apply J0, NV.
    - change (In [] groups0). apply In_groups0. destruct HF as [HF|HF]; [right|left]; symmetry.
      + unfold sdiff. destruct (filter _ V) as [|q l] eqn:E; [reflexivity|]. exfalso. assert (I : In q (sdiff V finals)) by (unfold sdiff; rewrite E; left; reflexivity). apply In_sdiff in I. destruct I as [I N]. apply N, filter_In. auto.
      + unfold finals. destruct (filter _ V) as [|q l] eqn:E; [reflexivity|]. exfalso. assert (I : In q finals) by (unfold finals; rewrite E; left; reflexivity). apply filter_In in I. destruct I as [I N]. rewrite HF in N by exact I. discriminate.
    - change (length groups0 + length V < fuel + length groups0). lia.
  Qed.
End P.
