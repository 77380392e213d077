(** Lemmas on the Thompson constructions: the four languages of a fragment, repetitions. *)
From Verif Require Import Base BaseProofs Graph Automaton Nfa NfaSpec NfaProofs Thompson ThompsonSpec ThompsonProofs ThompsonProofs2 ThompsonProofs3.
#[local] Arguments dkeys : simpl never.

Section P.
  Context {A : Type} {EA : EqDec A}.
  Variable eps : A.
  Notation frag := (nfa A * nat * nat)%type.
  Notation pre := (pre eps).
  Notation good := (good eps).
  Notation L := (L eps).
  Notation lg := (lg eps).
  Notation V := N_vertices.

  (** [sem x Lx Q F B]: the words read from q0 to f, from q0 to q0, from f to f, from f to q0. *)
  Definition sem (x : frag) (Lx Q F B : lang A) : Prop :=
    good x /\ let '(g, q0, f) := x in
    forall w, (lg g q0 f w <-> Lx w) /\ (lg g q0 q0 w <-> Q w) /\ (lg g f f w <-> F w) /\ (lg g f q0 w <-> B w).
  Definition lnone : lang A := fun _ => False.

  Lemma sem_ext x Lx Q F B Lx' Q' F' B' : sem x Lx Q F B -> (forall w, Lx w <-> Lx' w) -> (forall w, Q w <-> Q' w) ->
    (forall w, F w <-> F' w) -> (forall w, B w <-> B' w) -> sem x Lx' Q' F' B'.
  Proof.
    intros [G S] H1 H2 H3 H4. split; [exact G|]. destruct x as [[g q0] f]. intros w. destruct (S w) as (X1 & X2 & X3 & X4).
    rewrite <- H1, <- H2, <- H3, <- H4. auto.
  Qed.

  Lemma run_last (g : nfa A) p t w : lg g p t w -> (p = t /\ w = []) \/ exists q a u, ntrans g q a t /\ lg g p q u /\ (a = eps /\ w = u \/ a <> eps /\ w = u ++ [a]).
  Proof.
    revert p w. apply run_ind; [left; auto|]. intros q a r w u X St [(-> & ->)|(q' & b & v & Y & R & Sv)].
    - right. exists q, a, []. split; [exact X|]. split; [constructor|]. destruct St as [(-> & ->)|(N & ->)]; auto.
    - right. destruct St as [(-> & ->)|(N & ->)].
      + exists q', b, v. split; [exact Y|]. split; [eapply nrun_eps; eassumption|exact Sv].
      + exists q', b, (a :: v). split; [exact Y|]. split; [eapply nrun_cons; eassumption|]. destruct Sv as [(-> & ->)|(Nb & ->)]; auto.
  Qed.
  Lemma run_first (g : nfa A) p t w : lg g p t w -> (p = t /\ w = []) \/ exists a r u, ntrans g p a r /\ lg g r t u /\ (a = eps /\ w = u \/ a <> eps /\ w = a :: u).
  Proof.
    intros R. inversion R; subst; [auto| |]; right; [exists eps, r, w|exists a, r, w0]; auto.
  Qed.

  Lemma sem_clean x : good x -> clean x -> sem x (L x) leps leps lnone.
  Proof.
    destruct x as [[g q0] f]. intros G (N & C1 & C2). split; [exact G|]. intros w. split; [reflexivity|].
    assert (F : forall t, lg g f t w -> t = f /\ w = []).
    { intros t R. apply run_first in R. destruct R as [(<- & ->)|(a & r & u & X & _)]; [auto|]. destruct (C2 _ _ X). }
    split; [|split].
    - split; [|intros ->; constructor]. intros R. apply run_last in R. destruct R as [(_ & ->)|(q & a & u & X & _)]; [reflexivity|]. destruct (C1 _ _ X).
    - split; [|intros ->; constructor]. intros R. apply F in R. apply R.
    - split; [|intros []]. intros R. apply F in R. destruct R as [R _]. congruence.
  Qed.

  Lemma sem_loopy x : good x -> loopy eps x -> sem x (L x) (lopt (L x)) (lopt (L x)) (lopt (L x)).
  Proof.
    destruct x as [[g q0] f]. intros G (N & X0 & C1 & C2). split; [exact G|]. intros w. split; [reflexivity|].
    assert (Q : forall p, lg g p q0 w <-> (p = q0 /\ w = []) \/ lg g p f w).
    { intros p. split.
      - intros R. apply run_last in R. destruct R as [X|(q & a & u & X & R & Su)]; [tauto|]. destruct (C1 _ _ X) as [-> ->].
        destruct Su as [(_ & ->)|(Na & _)]; [|contradiction]. tauto.
      - intros [(-> & ->)|R]; [constructor|]. unfold ThompsonProofs3.lg. rewrite <- (app_nil_r w). eapply nrun_app; [exact R|]. apply nrun_one. exact X0. }
    assert (F : forall t, lg g f t w <-> (f = t /\ w = []) \/ lg g q0 t w).
    { intros t. split.
      - intros R. apply run_first in R. destruct R as [X|(a & r & u & X & R & Su)]; [tauto|]. destruct (C2 _ _ X) as [-> ->].
        destruct Su as [(_ & ->)|(Na & _)]; [|contradiction]. tauto.
      - intros [(-> & ->)|R]; [constructor|]. eapply nrun_eps; eassumption. }
    unfold lopt, lalt, leps. cbn [ThompsonProofs.L]. split; [|split].
    - rewrite Q. unfold ThompsonProofs3.lg. tauto.
    - rewrite F. unfold ThompsonProofs3.lg. tauto.
    - rewrite F, Q. unfold ThompsonProofs3.lg. split; [intros [(-> & _)|[X|X]]; tauto|]. intros [->|X]; tauto.
  Qed.

  Lemma sem_literal a : a <> eps -> sem (literal eps a) (lsym (eq a)) leps leps lnone.
  Proof.
    intros N. destruct (literal_ok eps a N) as [G HL]. eapply sem_ext; [apply sem_clean; [exact G|]|exact HL|reflexivity|reflexivity|reflexivity].
    assert (Wf0 : nwf (nf_adj (N_init 2 [] eps))) by apply (r_wf _ _ _ (N_init_rep 2 [] eps)).
    unfold literal. destruct (add_edge_ok (N_init 2 [] eps) 0 1 a Wf0) as (_ & _ & _ & Ta); [left; reflexivity|].
    assert (T0 : forall q b r, ~ ntrans (N_init 2 [] eps) q b r).
    { intros q b r X. apply (r_T _ _ _ (N_init_rep 2 [] eps)) in X. exact X. }
    cbn [clean]. split; [discriminate|]. split; intros q b X; change (ntrans (N_set_final ?g _ _)) with (ntrans g) in X; apply Ta in X;
      destruct X as [X|X]; [destruct (T0 _ _ _ X)|destruct X as (_ & _ & X); discriminate|destruct (T0 _ _ _ X)|destruct X as (X & _); discriminate].
  Qed.

  Lemma bracket_trans chars (g : nfa A) : nwf (nf_adj g) -> N_vertices g = [0; 1] ->
    forall q b r, ntrans (fold_left (fun g a => add_edge g 0 1 a) chars g) q b r -> ntrans g q b r \/ (q = 0 /\ r = 1).
  Proof.
    revert g. induction chars as [|c cs IH]; intros g W Vg q b r; cbn [fold_left]; [auto|]. intros X.
    destruct (add_edge_ok g 0 1 c W) as (Wa & Sa & Va & Ta); [rewrite Vg; left; reflexivity|].
    apply IH in X; [|exact Wa|congruence]. destruct X as [X|X]; [|auto]. apply Ta in X. tauto.
  Qed.

  Lemma sem_bracket chars : ~ In eps chars -> sem (bracket eps chars) (lsym (fun a => In a chars)) leps leps lnone.
  Proof.
    intros N. destruct (bracket_ok eps chars N) as [G HL]. eapply sem_ext; [apply sem_clean; [exact G|]|exact HL|reflexivity|reflexivity|reflexivity].
    assert (Wf0 : nwf (nf_adj (N_init 2 [] eps))) by apply (r_wf _ _ _ (N_init_rep 2 [] eps)).
    assert (T0 : forall q b r, ~ ntrans (N_set_final (N_init 2 [] eps) 1 true) q b r).
    { intros q b r X. apply (r_T _ _ _ (N_init_rep 2 [] eps)) in X. exact X. }
    unfold bracket. cbn [clean]. split; [discriminate|]. split; intros q b X; apply bracket_trans in X; auto;
      destruct X as [X|X]; [destruct (T0 _ _ _ X)|destruct X as (_ & X); discriminate|destruct (T0 _ _ _ X)|destruct X as (X & _); discriminate].
  Qed.

  Lemma sem_cat x1 x2 L1 Q1 F1 B1 L2 Q2 F2 B2 : sem x1 L1 Q1 F1 B1 -> sem x2 L2 Q2 F2 B2 ->
    exists x, concatenation x1 x2 = Ok x /\ sem x (lcat L1 L2) Q1 F2 lnone /\ snd (fst x) = snd (fst x1).
  Proof.
    intros [G1 S1] [G2 S2]. destruct x1 as [[g1 q01] f1], x2 as [[g2 q02] f2].
    destruct (concatenation_ok eps g1 q01 f1 (g2, q02, f2) (proj1 G1) G2) as (x & E & G & HL).
    set (gg := fun i => if i =? 0 then g1 else g2). set (qq := fun i => if i =? 0 then q01 else q02). set (ff := fun i => if i =? 0 then f1 else f2).
    assert (GG : forall i, good (gg i, qq i, ff i)) by (intros [|i]; assumption).
    destruct (chain_step eps gg qq ff GG 0 _ _ (chain_0 eps gg qq ff GG)) as (g'' & mm & E' & C & _ & M & _).
    change (concatenation (g1, q01, f1) (g2, q02, f2) = Ok (g'', mm 0 q01, mm 1 f2)) in E'. rewrite E in E'. injection E' as ->.
    exists (g'', mm 0 q01, mm 1 f2). split; [exact E|].
    assert (J : forall p a r, ntrans g'' p a r <-> ntrans g'' p a r \/ exists i, 1 <= i < 1 /\ p = mm i (ff i) /\ a = eps /\ r = mm 1 (ff 1)).
    { intros p a r. split; [auto|]. intros [X|(i & X & _)]; [exact X|lia]. }
    split; [|cbn [fst snd]; rewrite (M 0) by lia; reflexivity].
    split; [exact G|]. intros w. split; [|split; [|split]].
    - etransitivity; [apply HL|]. unfold lcat. split; intros (u & v & -> & X & Y); exists u, v; (split; [reflexivity|]); split; try apply (S1 u); try apply (S2 v); assumption.
    - etransitivity; [exact (chain_Q eps gg qq ff GG 1 1 mm g'' g'' C (le_n 1) J w (le_n 1))|]. apply (S1 w).
    - etransitivity; [exact (chain_F eps gg qq ff GG 1 1 mm g'' g'' C (le_n 1) J w)|]. apply (S2 w).
    - split; [|intros []]. intros R. exact (chain_B eps gg qq ff GG 1 1 mm g'' g'' C (le_n 1) J w (le_n 1) R).
  Qed.

  Lemma sem_good x : good x -> exists Q F B, sem x (L x) Q F B.
  Proof. destruct x as [[g q0] f]. intros G. exists (lg g q0 q0), (lg g f f), (lg g f q0). split; [exact G|]. intros w. repeat split; auto. Qed.

  Lemma sem_alt x1 x2 L1 Q1 F1 B1 L2 Q2 F2 B2 : sem x1 L1 Q1 F1 B1 -> sem x2 L2 Q2 F2 B2 ->
    exists x, alternation x1 x2 = Ok x /\ sem x (lalt L1 L2) leps leps lnone.
  Proof.
    intros [G1 S1] [G2 S2]. destruct (alternation_ok eps x1 x2 G1 G2) as (x & E & G & HL & C). exists x. split; [exact E|].
    eapply sem_ext; [apply sem_clean; [exact G|exact C]| |reflexivity|reflexivity|reflexivity].
    intros w. rewrite HL. destruct x1 as [[g1 q01] f1], x2 as [[g2 q02] f2]. unfold lalt. destruct (S1 w) as (<- & _), (S2 w) as (<- & _). reflexivity.
  Qed.

  Lemma sem_L x Lx Q F B : sem x Lx Q F B -> forall w, L x w <-> Lx w.
  Proof. intros [_ S] w. destruct x as [[g q0] f]. apply (S w). Qed.
  Lemma lstar_ext (L1 L2 : lang A) : (forall w, L1 w <-> L2 w) -> forall w, lstar L1 w <-> lstar L2 w.
  Proof. intros HL w. split; intros (n & X); exists n; (eapply lpow_ext; [|exact X]); intros; apply HL; assumption. Qed.
  Lemma lplus_ext (L1 L2 : lang A) : (forall w, L1 w <-> L2 w) -> forall w, lplus L1 w <-> lplus L2 w.
  Proof. intros HL w. split; intros (n & B & X); exists n; (split; [exact B|]); (eapply lpow_ext; [|exact X]); intros; apply HL; assumption. Qed.
  Lemma lopt_star (L1 : lang A) w : lopt (lstar L1) w <-> lstar L1 w.
  Proof. split; [intros [->|X]; [exists 0; reflexivity|exact X]|intros X; right; exact X]. Qed.
  Lemma lopt_plus (L1 : lang A) w : lopt (lplus L1) w <-> lstar L1 w.
  Proof.
    split; [intros [->|(n & _ & X)]; [exists 0; reflexivity|exists n; exact X]|]. intros (n & X). destruct n as [|n]; [left; exact X|right]. exists (S n). split; [lia|exact X].
  Qed.
  Lemma lopt_ext (L1 L2 : lang A) : (forall w, L1 w <-> L2 w) -> forall w, lopt L1 w <-> lopt L2 w.
  Proof. intros HL w. unfold lopt, lalt. rewrite HL. reflexivity. Qed.
  Lemma lcat_ext (L1 L2 M1 M2 : lang A) : (forall w, L1 w <-> L2 w) -> (forall w, M1 w <-> M2 w) -> forall w, lcat L1 M1 w <-> lcat L2 M2 w.
  Proof. intros H1 H2 w. split; intros (u & v & -> & X & Y); exists u, v; (split; [reflexivity|]); split; try apply H1; try apply H2; assumption. Qed.

  Lemma sem_star x Lx Q F B : sem x Lx Q F B -> sem (zero_or_more x) (lstar Lx) (lstar Lx) (lstar Lx) (lstar Lx).
  Proof.
    intros S. destruct (zero_or_more_ok eps x (proj1 S)) as (G & HL & Lo). pose proof (sem_L _ _ _ _ _ S) as E.
    assert (H : forall w, L (zero_or_more x) w <-> lstar Lx w) by (intros w; rewrite HL; apply lstar_ext; exact E).
    eapply sem_ext; [apply sem_loopy; assumption|exact H|..]; intros w; (rewrite (lopt_ext _ _ H); apply lopt_star).
  Qed.
  Lemma sem_plus x Lx Q F B : sem x Lx Q F B -> sem (one_or_more x) (lplus Lx) (lstar Lx) (lstar Lx) (lstar Lx).
  Proof.
    intros S. destruct (one_or_more_ok eps x (proj1 S)) as (G & HL & Lo). pose proof (sem_L _ _ _ _ _ S) as E.
    assert (H : forall w, L (one_or_more x) w <-> lplus Lx w) by (intros w; rewrite HL; apply lplus_ext; exact E).
    eapply sem_ext; [apply sem_loopy; assumption|exact H|..]; intros w; (rewrite (lopt_ext _ _ H); apply lopt_plus).
  Qed.

  Lemma sem_opt x Lx Q F B : sem x Lx Q F B ->
    sem (zero_or_one x) (lalt Lx (lcat Q (lcat (lstar B) F))) (lalt Q (lcat Q (lcat (lstar B) B))) (lalt F (lcat B (lcat (lstar B) F))) (lalt B (lcat B (lcat (lstar B) B))) /\
    snd (fst (zero_or_one x)) = snd (fst x).
  Proof.
    destruct x as [[g q0] f]. intros [G S]. pose proof (zero_or_one_runs eps g q0 f G) as R. destruct (zero_or_one_desc eps g q0 f G) as (g' & E & G' & _). rewrite E in *.
    split; [|reflexivity]. split; [exact G'|]. intros w.
    assert (SB : forall w, lstar (lg g f q0) w <-> lstar B w) by (apply lstar_ext; intros u; apply (S u)).
    assert (S1 : forall w, lg g q0 f w <-> Lx w) by (intros u; apply (S u)). assert (S2 : forall w, lg g q0 q0 w <-> Q w) by (intros u; apply (S u)).
    assert (S3 : forall w, lg g f f w <-> F w) by (intros u; apply (S u)). assert (S4 : forall w, lg g f q0 w <-> B w) by (intros u; apply (S u)).
    assert (C : forall P P' R R' : lang A, (forall w, P w <-> P' w) -> (forall w, R w <-> R' w) ->
      forall w, lcat P (lcat (lstar (lg g f q0)) R) w <-> lcat P' (lcat (lstar B) R') w) by (intros; apply lcat_ext; [assumption|]; apply lcat_ext; assumption).
    unfold lalt. rewrite !R, S1, S2, S3, S4, (C _ _ _ _ S2 S3), (C _ _ _ _ S2 S4), (C _ _ _ _ S4 S3), (C _ _ _ _ S4 S4). tauto.
  Qed.

  (** adding the transitions to the last final state *)
  Lemma jumps (f : nat) ps : forall g, nwf (nf_adj g) -> (forall p, In p ps -> In p (V g)) ->
    let g' := fold_left (fun g p => if p =? f then g else add_edge g p f eps) ps g in
    nwf (nf_adj g') /\ same_but_adj g g' /\ V g' = V g /\
    forall q a r, ntrans g' q a r <-> ntrans g q a r \/ (In q ps /\ q <> f /\ a = eps /\ r = f).
  Proof.
    induction ps as [|p ps IH]; intros g W I; cbn [fold_left].
    - split; [exact W|]. split; [repeat split|]. split; [reflexivity|]. intros q a r. split; [auto|]. intros [X|([] & _)]. exact X.
    - destruct (Nat.eqb_spec p f) as [->|N].
      + destruct (IH g W) as (W' & S' & V' & T'); [intros q X; apply I; right; exact X|]. repeat (split; [assumption|]).
        intros q a r. rewrite T'. cbn. split; [intros [X|(X & Y)]; tauto|]. intros [X|([->|X] & Y & Z)]; tauto.
      + destruct (add_edge_ok g p f eps W) as (Wa & Sa & Va & Ta); [apply I; left; reflexivity|].
        destruct (IH (add_edge g p f eps) Wa) as (W' & S' & V' & T'); [intros q X; rewrite Va; apply I; right; exact X|].
        split; [exact W'|]. split; [unfold same_but_adj in *; destruct S' as (-> & -> & -> & ->); exact Sa|]. split; [congruence|].
        intros q a r. rewrite T', Ta. cbn. split; [intros [[X|(-> & -> & ->)]|(X & Y)]; tauto|]. intros [X|([<-|X] & Y & Z)]; tauto.
  Qed.

  Lemma set_final_pre g q0 f : pre g q0 f -> pre (N_set_final g f false) q0 f.
  Proof.
    intros [W1 V1 T1 I1 Q1 F1 PF1 E1]. constructor; auto. cbn. intros v. destruct (Nat.eqb_spec v f); [discriminate|]. apply PF1.
  Qed.

  Section Rep.
    Variables (gg : nat -> nfa A) (qq ff : nat -> nat).
    Hypothesis GG : forall i, good (gg i, qq i, ff i).
    Variable ori : frag.
    (** all the fragments but the first one are [ori] *)
    Hypothesis Ori : forall i, (gg (S i), qq (S i), ff (S i)) = ori.

    Lemma chain_set_final k mm g' : chain eps gg qq ff k mm g' -> chain eps gg qq ff k mm (N_set_final g' (mm k (ff k)) false).
    Proof. intros [P CV CI CT]. constructor; auto. apply set_final_pre. exact P. Qed.

    Lemma repetition_loop_ok n : forall k mm g', chain eps gg qq ff k mm g' -> nf_final g' (mm k (ff k)) = true ->
      exists g'' mm', repetition_loop n ori (g', mm 0 (qq 0), mm k (ff k)) = Ok (g'', mm' 0 (qq 0), mm' (k + n) (ff (k + n))) /\
        chain eps gg qq ff (k + n) mm' g'' /\ nf_final g'' (mm' (k + n) (ff (k + n))) = true /\ forall i, i <= k -> mm' i = mm i.
    Proof.
      induction n as [|n IH]; intros k mm g' C F; cbn [repetition_loop].
      - exists g', mm. rewrite Nat.add_0_r. auto.
      - destruct (chain_step eps gg qq ff GG k mm _ (chain_set_final k mm g' C)) as (g1 & m1 & E & C1 & F1 & M1 & _).
        rewrite <- (Ori k), E. cbn [rbind]. rewrite (Ori k). destruct (IH (S k) m1 g1 C1 F1) as (g2 & m2 & E2 & C2 & F2 & M2). exists g2, m2.
        replace (k + S n) with (S k + n) by lia. split; [exact E2|]. split; [exact C2|]. split; [exact F2|]. intros i Hi. rewrite M2 by lia. apply M1. exact Hi.
    Qed.

    Lemma range_loop_ok n : forall k mm g' lo fs, chain eps gg qq ff k mm g' -> nf_final g' (mm k (ff k)) = true -> lo <= k ->
      (forall p, In p fs <-> exists i, lo <= i <= k /\ p = mm i (ff i)) ->
      exists g'' mm' fs', range_loop n ori (g', mm 0 (qq 0), mm k (ff k)) fs = Ok ((g'', mm' 0 (qq 0), mm' (k + n) (ff (k + n))), fs') /\
        chain eps gg qq ff (k + n) mm' g'' /\ nf_final g'' (mm' (k + n) (ff (k + n))) = true /\ (forall i, i <= k -> mm' i = mm i) /\
        (forall p, In p fs' <-> exists i, lo <= i <= k + n /\ p = mm' i (ff i)) /\
        (forall j q, 1 <= n -> V (gg (S k)) = seq 0 j -> q < j -> mm' (S k) q = nf_last g' + q).
    Proof.
      induction n as [|n IH]; intros k mm g' lo fs C F Hlo HF; cbn [range_loop].
      - exists g', mm, fs. rewrite Nat.add_0_r. repeat (split; [solve [auto]|]). intros; lia.
      - destruct (chain_step eps gg qq ff GG k mm _ C) as (g1 & m1 & E & C1 & F1 & M1 & N1).
        rewrite <- (Ori k), E. cbn [rbind]. rewrite (Ori k). cbn [snd].
        destruct (IH (S k) m1 g1 lo (sadd (m1 (S k) (ff (S k))) fs) C1 F1) as (g2 & m2 & fs2 & E2 & C2 & F2 & M2 & HF2 & _); [lia| |].
        { intros p. rewrite In_sadd, HF. split.
          - intros [->|(i & Hi & ->)]; [exists (S k); split; [lia|reflexivity]|]. exists i. split; [lia|]. rewrite M1 by lia. reflexivity.
          - intros (i & Hi & ->). destruct (Nat.eq_dec i (S k)) as [->|N]; [left; reflexivity|right]. exists i. rewrite M1 by lia. split; [lia|reflexivity]. }
        exists g2, m2, fs2. replace (k + S n) with (S k + n) by lia. split; [exact E2|]. split; [exact C2|]. split; [exact F2|]. split; [|split; [exact HF2|]].
        + intros i Hi. rewrite M2 by lia. apply M1. exact Hi.
        + intros j q _ Ej Hq. rewrite M2 by lia. apply (N1 j q Ej Hq).
    Qed.

    (** the last step of repetition_range *)
    Lemma range_end ord k lo mm g' fs : valid_order ord -> chain eps gg qq ff k mm g' -> nf_final g' (mm k (ff k)) = true -> lo <= k ->
      (forall p, In p fs <-> exists i, lo <= i <= k /\ p = mm i (ff i)) ->
      let f := mm k (ff k) in
      let g'' := fold_left (fun nfa pred_f => if pred_f =? f then nfa else add_edge nfa pred_f f (nf_eps g')) (ord 0 fs) g' in
      good (g'', mm 0 (qq 0), f) /\
      forall p a r, ntrans g'' p a r <-> ntrans g' p a r \/ exists i, lo <= i < k /\ p = mm i (ff i) /\ a = eps /\ r = mm k (ff k).
    Proof.
      intros VO C F Hlo HF f g''. destruct (c_pre _ _ _ _ _ _ _ C) as [W V0 T0 I0 Q0 F0 PF0 E0]. subst g''. rewrite E0.
      assert (FV : forall i, In (ff i) (V (gg i))) by (intros i; destruct (GG i) as [P _]; apply P).
      destruct (jumps f (ord 0 fs) g' W) as (W' & (Sl & Si & Sf & Se) & V' & T').
      { intros p X. apply (Permutation_in _ (VO 0 fs)) in X. apply HF in X. destruct X as (i & Hi & ->). apply (c_V _ _ _ _ _ _ _ C). exists i, (ff i).
        split; [lia|]. split; [apply FV|reflexivity]. }
      set (g'' := fold_left _ _ _) in *. clearbody g''.
      assert (T2 : forall p a r, ntrans g'' p a r <-> ntrans g' p a r \/ exists i, lo <= i < k /\ p = mm i (ff i) /\ a = eps /\ r = mm k (ff k)).
      { intros p a r. rewrite T'. apply or_iff_compat_l. split.
        - intros (X & N & -> & ->). apply (Permutation_in _ (VO 0 fs)) in X. apply HF in X. destruct X as (i & Hi & ->). exists i.
          assert (i <> k) by (intros ->; apply N; reflexivity). repeat split; lia.
        - intros (i & Hi & -> & -> & ->). split; [|split; [|auto]].
          + apply (Permutation_in _ (Permutation_sym (VO 0 fs))). apply HF. exists i. split; [lia|reflexivity].
          + intros X. apply (c_inj _ _ _ _ _ _ _ C) in X; auto; lia. }
      split; [|exact T2]. split; [|rewrite Sf; exact F]. constructor; rewrite ?V', ?Sl, ?Si, ?Sf, ?Se; auto.
      intros p a r X. apply T2 in X. destruct X as [X|(i & Hi & -> & -> & ->)]; [exact (T0 _ _ _ X)|]. split; [|exact F0].
      apply (c_V _ _ _ _ _ _ _ C). exists i, (ff i). split; [lia|]. split; [apply FV|reflexivity].
    Qed.
  End Rep.

  Lemma lseq_const (g : nfa A) q f n : forall i w, lseq eps (fun _ => g) (fun _ => q) (fun _ => f) i n w <-> lpow (lg g q f) n w.
  Proof. induction n as [|n IH]; intros i w; cbn [lseq lpow]; [reflexivity|]. apply lcat_ext; [reflexivity|apply IH]. Qed.

  Lemma lpow_ext_iff (L1 L2 : lang A) n : (forall w, L1 w <-> L2 w) -> forall w, lpow L1 n w <-> lpow L2 n w.
  Proof. intros HL w. split; apply lpow_ext; intros; apply HL; assumption. Qed.

  (** the words of [L^(S j)] absorb the loops on the final state *)
  Lemma lpow_absorb (g : nfa A) q f j w : lcat (lpow (lg g q f) (S j)) (lg g f f) w <-> lpow (lg g q f) (S j) w.
  Proof.
    split.
    - revert w. induction j as [|j IH]; intros w (u & v & -> & X & Y).
      + apply (proj1 (lpow_1 _ _)) in X. apply (proj2 (lpow_1 _ _)). eapply nrun_app; eassumption.
      + destruct X as (u1 & u2 & -> & X1 & X2). rewrite <- app_assoc. apply lcat_app; [exact X1|]. apply IH. apply lcat_app; assumption.
    - intros X. exists w, []. rewrite app_nil_r. split; [reflexivity|]. split; [exact X|constructor].
  Qed.

  (** repetition, m >= 1 *)
  Lemma sem_repetition x Lx Q F B k : sem x Lx Q F B -> exists x', repetition eps x (S k) = Ok x' /\
    sem x' (lpow Lx (S k)) Q F (if k =? 0 then B else lnone) /\ snd (fst x') = snd (fst x).
  Proof.
    destruct x as [[g q0] f]. intros [G S].
    set (gg := fun _ : nat => g). set (qq := fun _ : nat => q0). set (ff := fun _ : nat => f).
    assert (GG : forall i, good (gg i, qq i, ff i)) by (intros; exact G).
    destruct (repetition_loop_ok gg qq ff GG (g, q0, f) (fun _ => eq_refl) k 0 _ _ (chain_0 eps gg qq ff GG) (proj2 G)) as (g'' & mm & E & C & F1 & M).
    cbn [Nat.add] in *. cbn [repetition]. exists (g'', mm 0 q0, mm k f). split; [exact E|]. split; [|cbn [fst snd]; rewrite (M 0) by lia; reflexivity].
    split; [split; [exact (c_pre _ _ _ _ _ _ _ C)|exact F1]|].
    assert (J : forall p a r, ntrans g'' p a r <-> ntrans g'' p a r \/ exists i, k <= i < k /\ p = mm i (ff i) /\ a = eps /\ r = mm k (ff k)).
    { intros p a r. split; [auto|]. intros [X|(i & X & _)]; [exact X|lia]. }
    assert (S1 : forall w, lg g q0 f w <-> Lx w) by (intros u; apply (S u)).
    intros w. split; [|split; [|split]].
    - etransitivity; [exact (chain_lang eps gg qq ff GG k k mm g'' g'' C (le_n k) J w)|]. split.
      + intros (j & Hj & X). assert (j = k) by lia. subst j. apply (lpow_ext_iff _ _ (Datatypes.S k) S1). apply lpow_absorb. exact (proj1 (lcat_ext _ _ _ _ (lseq_const g q0 f _ 0) (fun _ => iff_refl _) w) X).
      + intros X. exists k. split; [lia|]. apply (lpow_ext_iff _ _ (Datatypes.S k) S1) in X. apply lpow_absorb in X. exact (proj2 (lcat_ext _ _ _ _ (lseq_const g q0 f _ 0) (fun _ => iff_refl _) w) X).
    - destruct (Nat.eqb_spec k 0) as [->|N].
      + cbn in E. injection E as E1 _ _. rewrite <- E1. rewrite (M 0) by lia. apply (S w).
      + etransitivity; [exact (chain_Q eps gg qq ff GG k k mm g'' g'' C (le_n k) J w ltac:(lia))|]. apply (S w).
    - etransitivity; [exact (chain_F eps gg qq ff GG k k mm g'' g'' C (le_n k) J w)|]. apply (S w).
    - destruct (Nat.eqb_spec k 0) as [->|N].
      + cbn in E. injection E as E1 _ _. rewrite <- E1. rewrite (M 0) by lia. apply (S w).
      + split; [|intros []]. intros R. exact (chain_B eps gg qq ff GG k k mm g'' g'' C (le_n k) J w ltac:(lia) R).
  Qed.

  (** repetition_range with 1 <= m <= n *)
  Lemma sem_range ord x Lx Q F B m n : valid_order ord -> sem x Lx Q F B -> 1 <= m -> m <= n -> exists x', repetition_range eps ord x m (Some n) = Ok x' /\
    sem x' (lrange Lx m (Some n)) Q F (if n =? 1 then B else lnone) /\ snd (fst x') = snd (fst x).
  Proof.
    intros VO. destruct x as [[g q0] f]. intros [G S] Hm Hn.
    set (gg := fun _ : nat => g). set (qq := fun _ : nat => q0). set (ff := fun _ : nat => f).
    assert (GG : forall i, good (gg i, qq i, ff i)) by (intros; exact G).
    destruct m as [|m0]; [lia|]. destruct (Nat.eqb_spec n 1) as [->|Nn].
    { assert (m0 = 0) by lia. subst m0. exists (g, q0, f). split.
      - cbn. assert (E : ord 0 [f] = [f]) by (apply Permutation_length_1_inv, Permutation_sym, VO). rewrite E. cbn. rewrite Nat.eqb_refl. reflexivity.
      - split; [|reflexivity]. split; [exact G|]. intros w. destruct (S w) as (S1 & S2 & S3 & S4). split; [|auto]. rewrite S1. unfold lrange. split.
        + intros X. exists 1. split; [lia|]. split; [lia|]. apply (proj2 (lpow_1 _ _)). exact X.
        + intros (j & H1 & H2 & X). replace j with 1 in X by lia. apply (proj1 (lpow_1 _ _)). exact X. }
    destruct (repetition_loop_ok gg qq ff GG (g, q0, f) (fun _ => eq_refl) m0 0 _ _ (chain_0 eps gg qq ff GG) (proj2 G)) as (g1 & mm1 & E & C & F1 & M).
    cbn [Nat.add] in *.
    destruct (range_loop_ok gg qq ff GG (g, q0, f) (fun _ => eq_refl) (n - Datatypes.S m0) m0 mm1 g1 m0 [mm1 m0 f] C F1 (le_n _)) as (g2 & mm & fs & E2 & C2 & F2 & M2 & HF & _).
    { intros p. cbn. split; [intros [<-|[]]; exists m0; split; [lia|reflexivity]|]. intros (i & Hi & ->). left. replace i with m0 by lia. reflexivity. }
    set (k := m0 + (n - Datatypes.S m0)) in *. assert (Ek : Datatypes.S k = n) by (unfold k; lia). clearbody k.
    assert (Hk : m0 <= k) by lia.
    destruct (range_end gg qq ff GG ord k m0 mm g2 fs VO C2 F2 Hk HF) as [G3 J].
    set (g3 := fold_left (fun (nfa : nfa A) (pred_f : nat) => if pred_f =? mm k (ff k) then nfa else add_edge nfa pred_f (mm k (ff k)) (nf_eps g2)) (ord 0 fs) g2) in *.
    assert (ER : repetition_range eps ord (g, q0, f) (Datatypes.S m0) (Some n) = Ok (g3, mm 0 q0, mm k f)).
    { transitivity (if Datatypes.S m0 <=? n then
          rbind (repetition eps (g, q0, f) (Datatypes.S m0)) (fun '(nfa, _, f0) =>
          rbind (range_loop (n - Datatypes.S m0) (g, q0, f) (nfa, q0, f0) [f0]) (fun '((nfa, q0, f), final_states) =>
          Ok (fold_left (fun nfa0 pred_f => if pred_f =? f then nfa0 else add_edge nfa0 pred_f f (nf_eps nfa)) (ord 0 final_states) nfa, q0, f)))
        else Raise AssertionError); [destruct m0; reflexivity|].
      destruct (Nat.leb_spec (Datatypes.S m0) n); [|lia]. cbn [repetition].
      assert (E' : repetition_loop m0 (g, q0, f) (g, q0, f) = Ok (g1, mm1 0 q0, mm1 m0 f)) by exact E. rewrite E'. cbn [rbind].
      assert (E2' : range_loop (n - Datatypes.S m0) (g, q0, f) (g1, mm1 0 q0, mm1 m0 f) [mm1 m0 f] = Ok ((g2, mm 0 q0, mm k f), fs)) by exact E2.
      rewrite (M 0) in E2' by lia. rewrite E2'. reflexivity. }
    exists (g3, mm 0 q0, mm k f). split; [exact ER|]. split; [|cbn [fst snd]; rewrite M2, (M 0) by lia; reflexivity].
    split; [exact G3|].
    assert (S1 : forall w, lg g q0 f w <-> Lx w) by (intros u; apply (S u)).
    intros w. split; [|split; [|split]].
    - etransitivity; [exact (chain_lang eps gg qq ff GG k m0 mm g2 g3 C2 Hk J w)|]. unfold lrange. split.
      + intros (j & Hj & X). exists (Datatypes.S j). split; [lia|]. split; [lia|]. apply (lpow_ext_iff _ _ (Datatypes.S j) S1). apply lpow_absorb. exact (proj1 (lcat_ext _ _ _ _ (lseq_const g q0 f _ 0) (fun _ => iff_refl _) w) X).
      + intros (j & H1 & H2 & X). destruct j as [|j]; [lia|]. exists j. split; [lia|]. apply (lpow_ext_iff _ _ (Datatypes.S j) S1) in X. apply lpow_absorb in X.
        exact (proj2 (lcat_ext _ _ _ _ (lseq_const g q0 f _ 0) (fun _ => iff_refl _) w) X).
    - etransitivity; [exact (chain_Q eps gg qq ff GG k m0 mm g2 g3 C2 Hk J w ltac:(lia))|]. apply (S w).
    - etransitivity; [exact (chain_F eps gg qq ff GG k m0 mm g2 g3 C2 Hk J w)|]. apply (S w).
    - split; [|intros []]. intros R. exact (chain_B eps gg qq ff GG k m0 mm g2 g3 C2 Hk J w ltac:(lia) R).
  Qed.

  (** repetition_range(0, n) when the initial state happens to be 0 *)
  Lemma unit_good : good (N_set_final (N_init 1 [] eps) 0 true, 0, 0).
  Proof.
    pose proof (N_init_rep 1 [] eps) as R. split; [constructor|reflexivity].
    - exact (r_wf _ _ _ R).
    - intros v. change (In v [0] -> v < 1). intros [<-|[]]. lia.
    - intros q a r X. apply (r_T _ _ _ R) in X. destruct X.
    - reflexivity.
    - left. reflexivity.
    - left. reflexivity.
    - intros v. cbn. destruct (Nat.eqb_spec v 0); [auto|discriminate].
    - reflexivity.
  Qed.
  Lemma unit_runs p t w : lg (N_set_final (N_init 1 [] eps) 0 true) p t w <-> p = t /\ w = [].
  Proof.
    split; [|intros (-> & ->); constructor]. intros R. apply run_first in R. destruct R as [R|(a & r & u & X & _)]; [exact R|].
    apply (r_T _ _ _ (N_init_rep 1 [] eps)) in X. destruct X.
  Qed.

  Lemma sem_range0 ord x Lx Q F B n : valid_order ord -> sem x Lx Q F B -> snd (fst x) = 0 -> 2 <= n -> exists x', repetition_range eps ord x 0 (Some n) = Ok x' /\
    sem x' (lalt F (lrange Lx 0 (Some n))) leps F lnone /\ snd (fst x') = 0.
  Proof.
    intros VO. destruct x as [[g q0] f]. intros [G S] Hq Hn. cbn [fst snd] in Hq. subst q0.
    set (u := N_set_final (N_init 1 [] eps) 0 true).
    set (gg := fun i : nat => if i =? 0 then u else g). set (qq := fun _ : nat => 0). set (ff := fun i : nat => if i =? 0 then 0 else f).
    assert (GG : forall i, good (gg i, qq i, ff i)) by (intros [|i]; [exact unit_good|exact G]).
    assert (Ori : forall i, (gg (Datatypes.S i), qq (Datatypes.S i), ff (Datatypes.S i)) = (g, 0, f)) by reflexivity.
    destruct (range_loop_ok gg qq ff GG (g, 0, f) Ori n 0 _ _ 0 [0] (chain_0 eps gg qq ff GG)) as (g2 & mm & fs & E2 & C2 & F2 & M2 & HF & _).
    { reflexivity. }
    { lia. }
    { intros p. cbn. split; [intros [<-|[]]; exists 0; split; [lia|reflexivity]|]. intros (i & Hi & ->). left. replace i with 0 by lia. reflexivity. }
    cbn [Nat.add] in *.
    destruct (range_end gg qq ff GG ord n 0 mm g2 fs VO C2 F2 (Nat.le_0_l n) HF) as [G3 J].
    set (g3 := fold_left (fun (nfa : nfa A) (pred_f : nat) => if pred_f =? mm n (ff n) then nfa else add_edge nfa pred_f (mm n (ff n)) (nf_eps g2)) (ord 0 fs) g2) in *.
    assert (Fn : ff n = f) by (destruct n; [lia|reflexivity]). assert (Gn : gg n = g) by (destruct n; [lia|reflexivity]).
    assert (M0 : mm 0 0 = 0) by (rewrite (M2 0) by lia; reflexivity).
    assert (ER : repetition_range eps ord (g, 0, f) 0 (Some n) = Ok (g3, mm 0 0, mm n (ff n))).
    { transitivity (rbind (range_loop n (g, 0, f) (u, 0, 0) [0]) (fun '((nfa, q0, f), final_states) =>
          Ok (fold_left (fun nfa0 pred_f => if pred_f =? f then nfa0 else add_edge nfa0 pred_f f (nf_eps nfa)) (ord 0 final_states) nfa, q0, f))).
      { destruct n as [|[|n]]; [lia|lia|]. reflexivity. }
      assert (E2' : range_loop n (g, 0, f) (u, 0, 0) [0] = Ok ((g2, mm 0 0, mm n (ff n)), fs)) by exact E2. rewrite E2'. reflexivity. }
    exists (g3, mm 0 0, mm n (ff n)). split; [exact ER|]. split; [|exact M0].
    split; [exact G3|].
    assert (S1 : forall w, lg g 0 f w <-> Lx w) by (intros v; apply (S v)).
    assert (LS : forall j i w, lseq eps gg qq ff (Datatypes.S i) j w <-> lpow (lg g 0 f) j w).
    { induction j as [|j IH]; intros i v; cbn [lseq lpow]; [reflexivity|]. apply lcat_ext; [reflexivity|apply IH]. }
    assert (L0 : forall j w, lseq eps gg qq ff 0 (Datatypes.S j) w <-> lpow (lg g 0 f) j w).
    { intros j v. cbn [lseq]. split.
      - intros (a & b & -> & X & Y). apply unit_runs in X. destruct X as [_ ->]. apply LS in Y. exact Y.
      - intros X. exists [], v. split; [reflexivity|]. split; [apply unit_runs; auto|]. apply LS. exact X. }
    intros w. split; [|split; [|split]].
    - etransitivity; [exact (chain_lang eps gg qq ff GG n 0 mm g2 g3 C2 (Nat.le_0_l n) J w)|]. rewrite Gn, Fn. split.
      + intros (j & Hj & X). apply (lcat_ext _ _ _ _ (L0 j) (fun _ => iff_refl _)) in X. destruct j as [|j].
        * left. destruct X as (a & b & -> & Y & X). cbn in Y. unfold leps in Y. subst a. apply (S b). exact X.
        * right. exists (Datatypes.S j). split; [lia|]. split; [lia|]. apply (lpow_ext_iff _ _ (Datatypes.S j) S1). apply lpow_absorb. exact X.
      + intros [X|(j & H1 & H2 & X)].
        * exists 0. split; [lia|]. apply (lcat_ext _ _ _ _ (L0 0) (fun _ => iff_refl _)). exists [], w. split; [reflexivity|]. split; [reflexivity|]. apply (S w). exact X.
        * exists j. split; [lia|]. apply (lcat_ext _ _ _ _ (L0 j) (fun _ => iff_refl _)). exists w, []. rewrite app_nil_r. split; [reflexivity|].
          split; [apply (lpow_ext_iff _ _ j S1); exact X|constructor].
    - etransitivity; [exact (chain_Q eps gg qq ff GG n 0 mm g2 g3 C2 (Nat.le_0_l n) J w ltac:(lia))|]. cbn. unfold leps. etransitivity; [apply unit_runs|]. tauto.
    - etransitivity; [exact (chain_F eps gg qq ff GG n 0 mm g2 g3 C2 (Nat.le_0_l n) J w)|]. rewrite Gn, Fn. apply (S w).
    - split; [|intros []]. intros R. exact (chain_B eps gg qq ff GG n 0 mm g2 g3 C2 (Nat.le_0_l n) J w ltac:(lia) R).
  Qed.

  Lemma sem_range00 ord x Lx Q F B : valid_order ord -> sem x Lx Q F B -> snd (fst x) = 0 -> exists x', repetition_range eps ord x 0 (Some 0) = Ok x' /\
    sem x' leps leps leps leps /\ snd (fst x') = 0.
  Proof.
    intros VO S Hq. destruct x as [[g q0] f]. cbn in Hq. subst q0. exists (N_set_final (N_init 1 [] eps) 0 true, 0, 0). split.
    - cbn [repetition_range repetition rbind Nat.leb Nat.sub range_loop]. assert (E : ord 0 [0] = [0]) by (apply Permutation_length_1_inv, Permutation_sym, VO). rewrite E. reflexivity.
    - split; [|reflexivity]. split; [exact unit_good|]. intros w. rewrite !unit_runs. unfold leps. tauto.
  Qed.

  (** repetition_range(m, None) with m >= 2 *)
  Lemma sem_unbounded ord x Lx Q F B m : sem x Lx Q F B -> 2 <= m -> exists x', repetition_range eps ord x m None = Ok x' /\
    sem x' (lrange Lx m None) Q (lstar Lx) lnone /\ snd (fst x') = snd (fst x).
  Proof.
    intros S Hm. destruct m as [|[|m]]; [lia|lia|]. destruct (sem_repetition x Lx Q F B m S) as (x1 & E1 & S1 & Q1).
    destruct (sem_cat x1 (one_or_more x) _ _ _ _ _ _ _ _ S1 (sem_plus _ _ _ _ _ S)) as (x' & E & S' & Q'). exists x'.
    split; [|split; [|congruence]].
    - destruct x as [[g q0] f]. cbn [repetition_range Nat.sub]. rewrite E1. exact E.
    - eapply sem_ext; [exact S'| |reflexivity|reflexivity|reflexivity]. intros w. unfold lrange. split.
      + intros (u & v & -> & X & n & Hn & Y). exists (Datatypes.S m + n). split; [lia|]. split; [trivial|]. apply lpow_app; assumption.
      + intros (k & Hk & _ & X). replace k with (Datatypes.S m + (k - Datatypes.S m)) in X by lia. apply lpow_split in X. destruct X as (u & v & -> & X & Y).
        apply lcat_app; [exact X|]. exists (k - Datatypes.S m). split; [lia|exact Y].
  Qed.
End P.
