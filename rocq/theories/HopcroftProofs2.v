(** Lemmas on hopcroft_minimize: the construction of the quotient. *)
From Verif Require Import Graph GraphProofs Automaton AutomatonSpec AutomatonProofs AutomatonProofs2 Revuz RevuzSpec RevuzProofs RevuzProofs2 Hopcroft HopcroftProofs Base BaseProofs.

Section Lists.
  Lemma find_idx_some p : forall l i, find_idx p l = Some i -> exists B, nth_error l i = Some B /\ p B = true.
  Proof.
    induction l as [|x l IH]; intros i E; cbn in E; [discriminate|]. destruct (p x) eqn:F; [injection E as <-; exists x; auto|]. destruct (find_idx p l) as [k|]; [|discriminate]. injection E as <-. destruct (IH k eq_refl) as (B & H). exists B. exact H.
  Qed.
  Lemma find_idx_ex p : forall l B, In B l -> p B = true -> exists i, find_idx p l = Some i.
  Proof.
    induction l as [|x l IH]; intros B I F; [destruct I|]. cbn. destruct (p x) eqn:E; [exists 0; reflexivity|]. destruct I as [->|I]; [congruence|]. destruct (IH B I F) as [i ->]. exists (S i). reflexivity.
  Qed.
  Lemma set_idx_spec l B i : NoDup l -> nth_error l i = Some B -> set_idx l B = Some i.
  Proof.
    intros N E. destruct (find_idx_ex (eqb B) l B (nth_error_In _ _ E) (eqb_refl B)) as [k F]. unfold set_idx. rewrite F. destruct (find_idx_some _ _ _ F) as (B' & G & H). destruct (eqb_spec B B') as [<-|]; [|discriminate].
    f_equal. apply (proj1 (NoDup_nth_error l) N); [apply nth_error_Some; congruence|congruence].
  Qed.
  Lemma group_of_spec : forall l r, (exists B, In B l /\ In r B) -> exists B, group_of l r = Some B /\ In B l /\ In r B.
  Proof.
    induction l as [|x l IH]; intros r (B & I & Ir); [destruct I|]. cbn. destruct l as [|y l]; [destruct I as [<-|[]]; exists x; cbn; auto|].
    destruct (mem_reflect r x) as [J|J]; [exists x; cbn; auto|]. destruct I as [<-|I]; [contradiction|]. destruct (IH r) as (B' & E & I' & J'); [exists B; auto|]. exists B'. split; [exact E|]. split; [right; exact I'|exact J'].
  Qed.
  Lemma swap0_spec (l : list (list nat)) i B : nth_error l i = Some B -> Permutation (swap0 l i) l /\ nth_error (swap0 l i) 0 = Some B.
  Proof.
    intros E. destruct l as [|x l]; [destruct i; discriminate|]. unfold swap0. rewrite E. destruct i as [|i]; [split; [reflexivity|exact E]|]. cbn in E. split; [|reflexivity].
    apply nth_error_split in E. destruct E as (l1 & l2 & -> & <-). rewrite firstn_app, Nat.sub_diag, firstn_all, app_nil_r by reflexivity. rewrite skipn_app, skipn_all2 by lia. replace (S (length l1) - length l1) with 1 by lia. cbn.
    transitivity (B :: x :: l1 ++ l2); [constructor; symmetry; apply Permutation_middle|]. etransitivity; [apply perm_swap|]. constructor. apply Permutation_middle.
  Qed.
End Lists.

Section Q.
  Context {A : Type} {EA : EqDec A}.
  Lemma dset_same {K X} {EK : EqDec K} (m : dict K X) k v : dget m k = Some v -> dset m k v = m.
  Proof. induction m as [|[k' v'] m IH]; cbn; [discriminate|]. destruct (eqb_spec k k') as [->|N]; [intros [= ->]; reflexivity|]. intros E. rewrite IH by exact E. reflexivity. Qed.
  Lemma make_rep n f : iarep (IA_make (A := A) n f) (AA n (seq 0 n) [] (Some 0) f).
  Proof.
    destruct (iarep_init (A := A) n) as ((H1 & H2 & H3 & H4 & H5 & H6 & H7) & K & W & L & C). cbn in *. split; [|cbn; auto]. unfold arep. cbn. split; [exact H1|]. split; [exact H2|]. split; [exact H3|]. split; [exact H4|]. auto.
  Qed.
  (** Adding again a transition to state 0 *)
  Lemma readd0 (g : iaut A) s q a : iarep g s -> In (Edge q 0 a) (aa_T s) -> exists g' e, IA_add_edge g q 0 a = (g', Ok e) /\ iarep g' s.
  Proof.
    intros RR I. pose proof RR as (R & K & W & L & C). destruct (A_step _ _ (AAddEdge q 0 a) R) as [R1 O1]. destruct (C _ I) as [Vq V0]. cbn [source target] in Vq, V0.
    assert (LK : lookup (aa_T s) q a = Some 0) by (rewrite (trep_lookup _ _ _ _ (proj1 (proj2 (proj2 (proj2 R))))); apply (proj2 (proj1 (proj2 (proj2 (proj2 R))))), I).
    destruct s as [k V T q0 f]. cbn [aa_T aa_V] in *. cbn [A_call aa_step] in R1, O1. rewrite LK in R1, O1. rewrite (proj2 (mem_spec q V) Vq) in R1, O1. cbn [fst snd] in R1, O1.
    unfold IA_add_edge. destruct (A_add_edge (ia_base g) q 0 a) as [b [[e ad]|x]]; [|discriminate O1]. injection O1 as -> ->.
    assert (TI : forall x, In x (drop_key q a T ++ [Edge q 0 a]) <-> In x T).
    { intros x. rewrite in_app_iff, In_drop_key. cbn. split; [intros [[H _]|[<-|[]]]; assumption|]. intros H. destruct (same_key_spec q a x) as [[E1 E2]|N]; [|auto]. right. left. symmetry. apply (keys_same_key _ _ (proj1 (proj2 (proj2 (proj2 R)))) _ _ H I E1 E2). }
    assert (RB : arep b (AA k V T q0 f)).
    { destruct R1 as (H1 & H2 & H3 & [_ H4] & H5 & H6 & H7). cbn in *. split; [exact H1|]. split; [exact H2|]. split; [exact H3|]. split; [split; [apply R|intros q' r' a'; rewrite <- H4; symmetry; apply TI]|]. auto. }
    assert (HA : In a (lab (ia_in g) 0 q)) by (apply L, I). unfold lab in HA. destruct (dget (ia_in g) 0) as [d|] eqn:ED; [|destruct HA]. destruct (dget d q) as [sl|] eqn:ES; [|destruct HA].
    assert (SA : sadd a sl = sl) by (unfold sadd; rewrite (proj2 (mem_spec a sl) HA); reflexivity). rewrite SA.
    eexists. eexists. split; [reflexivity|]. split; [exact RB|]. cbn [ia_in aa_V aa_T].
    assert (DE : dset d q sl = d) by (apply dset_same; exact ES). rewrite DE. rewrite (dset_same _ _ _ ED). auto.
  Qed.
  Lemma add_one (F : nat -> A -> nat -> Prop) (g : iaut A) s i j a : iarep g s -> (forall i a j j', F i a j -> F i a j' -> j = j') -> (forall i j a, In (Edge i j a) (aa_T s) -> F i a j) -> F i a j -> In i (aa_V s) -> In j (aa_V s) ->
    exists g' s' e, IA_add_edge g i j a = (g', Ok e) /\ iarep g' s' /\ aa_V s' = aa_V s /\ aa_q0 s' = aa_q0 s /\ aa_final s' = aa_final s /\ forall x, In x (aa_T s') <-> In x (aa_T s) \/ x = Edge i j a.
  Proof.
    intros R FF TF FI Vi Vj. assert (LK := trep_lookup _ _ i a (proj1 (proj2 (proj2 (proj2 (proj1 R)))))).
    destruct (lookup (aa_T s) i a) as [r|] eqn:E.
    - assert (I : In (Edge i r a) (aa_T s)) by (apply (proj2 (proj1 (proj2 (proj2 (proj2 (proj1 R)))))); congruence). assert (r = j) as -> by (apply (FF i a); [apply TF, I|exact FI]).
      destruct j as [|j].
      + destruct (readd0 g s i a R I) as (g' & e & E' & R'). exists g', s, e. split; [exact E'|]. split; [exact R'|]. do 3 (split; [reflexivity|]). intros x. split; [auto|intros [H| ->]; assumption].
      + destruct (IA_step g s (AAddEdge i (S j) a) R) as [R1 O1]; [cbn; rewrite E; split; [exact Vi|split; [exact Vj|discriminate]]|]. destruct s as [k V T q0 f]. cbn [IA_call ia_step aa_step aa_T] in *. rewrite E in R1, O1. cbn [fst snd] in R1, O1.
        destruct (IA_add_edge g i (S j) a) as [g' [e|x]]; [|discriminate O1]. exists g', (AA k V T q0 f), e. split; [reflexivity|]. split; [exact R1|]. do 3 (split; [reflexivity|]). cbn. intros x. split; [auto|intros [H| ->]; assumption].
    - destruct (IA_step g s (AAddEdge i j a) R) as [R1 O1]; [cbn; rewrite E; split; [exact Vi|split; [exact Vj|discriminate]]|]. destruct s as [k V T q0 f]. cbn [IA_call ia_step aa_step aa_T aa_V] in *. rewrite E in R1, O1. rewrite (proj2 (mem_spec i V) Vi) in R1, O1. cbn [fst snd] in R1, O1.
      destruct (IA_add_edge g i j a) as [g' [e|x]]; [|discriminate O1]. eexists g', _, e. split; [reflexivity|]. split; [exact R1|]. do 3 (split; [reflexivity|]). cbn [aa_T]. intros x. rewrite in_app_iff, In_drop_key. cbn [In]. split; [intros [[H _]|[H|[]]]; auto|].
      intros [H|H]; [left; split; [exact H|]|auto]. intros [E1 E2]. destruct x as [q r b]. cbn in E1, E2. subst. apply (proj2 (proj1 (proj2 (proj2 (proj2 (proj1 R)))))) in H. cbn in H. congruence.
  Qed.

  Section Build.
    Variables (g : iaut A) (s : aaut A) (l : list (list nat)).
    Hypothesis R : iarep g s.
    Hypothesis HJ : J g l [] (fun _ _ _ => False).
    Notation delta := (A_delta (ia_base g)).
    (** the transitions of the quotient *)
    Definition F (i : nat) (a : A) (j : nat) : Prop := exists q r Bi Bj, nth_error l i = Some Bi /\ In q Bi /\ delta q a = Some r /\ nth_error l j = Some Bj /\ In r Bj.
    Lemma nth_inj i j B : nth_error l i = Some B -> nth_error l j = Some B -> i = j.
    Proof. intros E1 E2. apply (proj1 (NoDup_nth_error l) (p_nodup _ _ (j_part _ _ _ _ HJ))); [apply nth_error_Some; congruence|congruence]. Qed.
    Lemma cell i j Bi Bj q : nth_error l i = Some Bi -> nth_error l j = Some Bj -> In q Bi -> In q Bj -> i = j.
    Proof. intros E1 E2 I1 I2. apply (nth_inj i j Bi E1). rewrite E2. f_equal. symmetry. apply (p_disj _ _ (j_part _ _ _ _ HJ) Bi Bj q); eauto using nth_error_In. Qed.
    Lemma stable B q q' a r : In B l -> In q B -> In q' B -> delta q a = Some r -> exists r', delta q' a = Some r' /\ forall C, In C l -> In r C -> In r' C.
    Proof.
      intros I Iq Iq' E. destruct (delta_in g s R q a r E) as [_ Vr]. apply (p_cover _ _ (j_part _ _ _ _ HJ)) in Vr. destruct Vr as (C & IC & Ir).
      destruct (oin_dec (delta q' a) C) as [(r' & E' & I')|N].
      - exists r'. split; [exact E'|]. intros C' IC' Ir'. rewrite (p_disj _ _ (j_part _ _ _ _ HJ) C' C r IC' IC Ir' Ir). exact I'.
      - exfalso. destruct (j_good _ _ _ _ HJ B q q' a I Iq Iq') as [(D & [] & _)|[]]. exists C. split; [exact IC|]. left. split; [exists r; auto|exact N].
    Qed.
    Lemma F_fun i a j j' : F i a j -> F i a j' -> j = j'.
    Proof.
      intros (q & r & Bi & Bj & E1 & I1 & D1 & E2 & I2) (q' & r' & Bi' & Bj' & E1' & I1' & D1' & E2' & I2'). rewrite E1 in E1'. injection E1' as <-.
      destruct (stable Bi q q' a r (nth_error_In _ _ E1) I1 I1' D1) as (r2 & D2 & H2). rewrite D1' in D2. injection D2 as <-. apply (cell j j' Bj Bj' r' E2 E2'); [apply H2; [apply (nth_error_In _ _ E2)|exact I2]|exact I2'].
    Qed.
    Lemma add_new_all es : (forall B e, In (B, e) es -> In B l /\ In (source e) B /\ In e (IA_edges g)) -> forall g' s', iarep g' s' -> aa_V s' = seq 0 (length l) -> (forall i j a, In (Edge i j a) (aa_T s') -> F i a j) ->
      exists g'' s'', foreach (add_new_edge l) g' es = (g'', Ok tt) /\ iarep g'' s'' /\ aa_V s'' = aa_V s' /\ aa_q0 s'' = aa_q0 s' /\ aa_final s'' = aa_final s' /\ (forall i j a, In (Edge i j a) (aa_T s'') -> F i a j) /\
        (forall x, In x (aa_T s') -> In x (aa_T s'')) /\
        forall B e i j C, In (B, e) es -> nth_error l i = Some B -> nth_error l j = Some C -> In (target e) C -> In (Edge i j (distinguisher e)) (aa_T s'').
    Proof.
      induction es as [|[B e] es IH]; intros HE g' s' R' EV TF; cbn [foreach].
      - exists g', s'. split; [reflexivity|]. split; [exact R'|]. do 3 (split; [reflexivity|]). split; [exact TF|]. split; [auto|]. intros ? ? ? ? ? [].
      - destruct (HE B e (or_introl eq_refl)) as (IB & Is & Ie). destruct e as [q r a]. cbn [source target distinguisher] in *.
        assert (D : delta q a = Some r) by (apply (delta_edges g s R), Ie). destruct (delta_in g s R q a r D) as [_ Vr].
        destruct (group_of_spec l r) as (C & EC & IC & Ir); [apply (p_cover _ _ (j_part _ _ _ _ HJ)), Vr|].
        pose proof (p_nodup _ _ (j_part _ _ _ _ HJ)) as ND. destruct (In_nth_error _ _ IB) as [i Ei]. destruct (In_nth_error _ _ IC) as [j Ej].
        unfold add_new_edge at 1. cbn [target distinguisher]. rewrite EC, (set_idx_spec l B i ND Ei), (set_idx_spec l C j ND Ej).
        assert (FI : F i a j) by (exists q, r, B, C; auto).
        assert (BD : forall k X, nth_error l k = Some X -> In k (aa_V s')) by (intros k X E; rewrite EV; apply in_seq; assert (k < length l) by (apply nth_error_Some; congruence); lia).
        destruct (add_one F g' s' i j a R' F_fun TF FI (BD _ _ Ei) (BD _ _ Ej)) as (g1 & s1 & o & -> & R1 & V1 & Q1 & F1 & T1).
        destruct (IH (fun B e I => HE B e (or_intror I)) g1 s1 R1) as (g2 & s2 & E2 & R2 & V2 & Q2 & F2 & T2 & K2 & L2).
        + congruence.
        + intros i' j' a' I. apply T1 in I. destruct I as [I|[= -> -> ->]]; [apply TF, I|exact FI].
        + exists g2, s2. split; [exact E2|]. split; [exact R2|]. do 3 (split; [congruence|]). split; [exact T2|]. split; [intros x I; apply K2, T1; auto|].
          intros B' e' i' j' C' [[= <- <-]|I]; [|apply L2; assumption]. intros Ei' Ej' Ir'. cbn [target distinguisher] in *. apply K2, T1. right. rewrite (nth_inj i' i B Ei' Ei). rewrite (cell j' j C' C r Ej' Ej Ir' Ir). reflexivity.
    Qed.
  End Build.

  Section Lang.
    Variables (g g' : iaut A) (s s' : aaut A) (l : list (list nat)).
    Hypothesis R : iarep g s.
    Hypothesis HJ : J g l [] (fun _ _ _ => False).
    Hypothesis R' : iarep g' s'.
    Hypothesis HT : forall i j a, In (Edge i j a) (aa_T s') <-> F g l i a j.
    Hypothesis HF : forall i B q, nth_error l i = Some B -> In q B -> aa_final s' i = A_is_final (ia_base g) q.
    Lemma edges' i j a : In (Edge i j a) (IA_edges g') <-> F g l i a j.
    Proof. rewrite <- HT. pose proof (obs_edges _ _ (proj1 R')) as P. split; apply Permutation_in; [exact P|symmetry; exact P]. Qed.
    Lemma lang_path w : forall q r, path (IA_edges g) q w r -> forall i B, nth_error l i = Some B -> In q B -> exists j C, path (IA_edges g') i w j /\ nth_error l j = Some C /\ In r C.
    Proof.
      intros q r P. induction P as [q|q a x w t I P IH]; intros i B E Iq; [exists i, B; split; [constructor|auto]|].
      apply (delta_edges g s R) in I. destruct (delta_in g s R q a x I) as [_ Vx]. apply (p_cover _ _ (j_part _ _ _ _ HJ)) in Vx. destruct Vx as (C & IC & Ix). destruct (In_nth_error _ _ IC) as [k Ek].
      destruct (IH k C Ek Ix) as (j & D & P' & Ej & It). exists j, D. split; [|auto]. econstructor; [|exact P']. apply edges'. exists q, x, B, C. auto.
    Qed.
    Lemma lang_path_inv w : forall i j, path (IA_edges g') i w j -> forall q B, nth_error l i = Some B -> In q B -> exists r C, path (IA_edges g) q w r /\ nth_error l j = Some C /\ In r C.
    Proof.
      intros i j P. induction P as [i|i a k w j I P IH]; intros q B E Iq; [exists q, B; split; [constructor|auto]|].
      apply edges' in I. destruct I as (q1 & r1 & B1 & C1 & E1 & I1 & D1 & Ek & Ir1). rewrite E in E1. injection E1 as <-.
      destruct (stable g s l R HJ B q1 q a r1 (nth_error_In _ _ E) I1 Iq D1) as (r & D & H). specialize (H C1 (nth_error_In _ _ Ek) Ir1). destruct (IH r C1 Ek H) as (t & C & P' & Ej & It). exists t, C. split; [|auto]. econstructor; [apply (delta_edges g s R), D|exact P'].
    Qed.
    Lemma lang_accepted q i B w : nth_error l i = Some B -> In q B -> (accepted g' i w <-> accepted g q w).
    Proof.
      assert (HF' : forall i, A_is_final (ia_base g') i = aa_final s' i) by apply R'.
      intros E I. split; intros (t & P & FT).
      - destruct (lang_path_inv w i t P q B E I) as (r & C & P' & Et & Ir). exists r. split; [exact P'|]. rewrite <- FT, HF'. symmetry. apply (HF t C r Et Ir).
      - destruct (lang_path w q t P i B E I) as (j & C & P' & Ej & It). exists j. split; [exact P'|]. rewrite <- FT, HF'. apply (HF j C t Ej It).
    Qed.
    Lemma lang_readable q i B w : nth_error l i = Some B -> In q B -> (readable (IA_edges g') i w <-> readable (IA_edges g) q w).
    Proof.
      intros E I. split; intros (t & P).
      - destruct (lang_path_inv w i t P q B E I) as (r & C & P' & _). exists r. exact P'.
      - destruct (lang_path w q t P i B E I) as (j & C & P' & _). exists j. exact P'.
    Qed.
  End Lang.
End Q.
