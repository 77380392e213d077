(** Lemmas on the Thompson constructions: the languages between the initial and the final state in all
    directions, chains of copies, repetitions. *)
From Verif Require Import Base BaseProofs Graph Automaton Nfa NfaSpec NfaProofs Thompson ThompsonSpec ThompsonProofs ThompsonProofs2.
#[local] Arguments dkeys : simpl never.

Section P.
  Context {A : Type} {EA : EqDec A}.
  Variable eps : A.
  Notation frag := (nfa A * nat * nat)%type.
  Notation pre := (pre eps).
  Notation good := (good eps).
  Notation L := (L eps).
  Notation V := N_vertices.

  (** the words read from [p] to [t] *)
  Definition lg (g : nfa A) (p t : nat) : lang A := fun w => nrun (ntrans g) eps p w t.

  Lemma run_ind (g : nfa A) t (G : nat -> list A -> Prop) : G t [] ->
    (forall q a r w u, ntrans g q a r -> (a = eps /\ u = w \/ a <> eps /\ u = a :: w) -> G r w -> G q u) ->
    forall p w, lg g p t w -> G p w.
  Proof. intros H1 H2 p w R. revert p w R. apply nrun_goal; [exact H1| |]; intros; eapply H2; eauto. Qed.

  Lemma lg_step (g : nfa A) q a r w u t : ntrans g q a r -> (a = eps /\ u = w \/ a <> eps /\ u = a :: w) -> lg g r t w -> lg g q t u.
  Proof. intros X [(-> & ->)|(N & ->)] R; [eapply nrun_eps|eapply nrun_cons]; eassumption. Qed.

  Lemma step_app a w v u (z : list A) : (a = eps /\ u = w \/ a <> eps /\ u = a :: w) -> w = v ++ z ->
    exists v', u = v' ++ z /\ (a = eps /\ v' = v \/ a <> eps /\ v' = a :: v).
  Proof. intros [(-> & ->)|(N & ->)] ->; [exists v|exists (a :: v)]; auto. Qed.

  (** ** zero_or_one, exactly *)
  Lemma zero_or_one_runs g q0 f : good (g, q0, f) -> let '(g', _, _) := zero_or_one (g, q0, f) in
    forall p t w, lg g' p t w <-> lg g p t w \/ lcat (lg g p q0) (lcat (lstar (lg g f q0)) (lg g f t)) w.
  Proof.
    intros G. destruct (zero_or_one_desc eps g q0 f G) as (g' & E & _ & _ & _ & T). rewrite E.
    assert (Ex : forall p t w, lg g p t w -> lg g' p t w) by (intros p t w; apply nrun_ext; intros; apply T; left; assumption).
    assert (J : ntrans g' q0 eps f) by (apply T; auto).
    intros p t w. split.
    - revert p w. apply run_ind; [left; constructor|]. intros q a r w u X St [IH|(u1 & w1 & -> & X1 & (v & z & -> & X2 & X3))].
      + apply T in X. destruct X as [X|(-> & -> & ->)]; [left; eapply lg_step; eassumption|]. right. destruct St as [(_ & ->)|(N & _)]; [|contradiction].
        exists [], w. split; [reflexivity|]. split; [constructor|]. exists [], w. split; [reflexivity|]. split; [exists 0; reflexivity|exact IH].
      + right. destruct (step_app _ _ _ _ _ St eq_refl) as (u' & -> & St'). apply T in X. destruct X as [X|(-> & -> & ->)].
        * apply lcat_app; [eapply lg_step; eassumption|]. apply lcat_app; assumption.
        * destruct St' as [(_ & ->)|(N & _)]; [|contradiction]. exists [], (u1 ++ v ++ z). split; [reflexivity|]. split; [constructor|].
          exists (u1 ++ v), z. rewrite app_assoc. split; [reflexivity|]. split; [|exact X3]. destruct X2 as (n & X2). exists (S n). apply lcat_app; assumption.
    - intros [X|(u & w1 & -> & X1 & (v & z & -> & (n & X2) & X3))]; [apply Ex; exact X|].
      eapply nrun_app; [apply Ex; exact X1|]. eapply nrun_eps; [exact J|]. revert v X2. induction n as [|n IH]; intros v X2.
      + rewrite X2. apply Ex. exact X3.
      + destruct X2 as (v1 & v2 & -> & X4 & X5). rewrite <- app_assoc. eapply nrun_app; [apply Ex; exact X4|]. eapply nrun_eps; [exact J|]. apply IH. exact X5.
  Qed.

  (** ** chains of copies *)
  Section Chain.
    Variables (gg : nat -> nfa A) (qq ff : nat -> nat).
    Hypothesis GG : forall i, good (gg i, qq i, ff i).
    Definition Li (i : nat) : lang A := lg (gg i) (qq i) (ff i).

    (** copies of the fragments 0 .. k linked by epsilon-transitions *)
    Record chain (k : nat) (mm : nat -> nat -> nat) (g' : nfa A) : Prop := {
      c_pre : pre g' (mm 0 (qq 0)) (mm k (ff k));
      c_V : forall v, In v (V g') <-> exists i q, i <= k /\ In q (V (gg i)) /\ v = mm i q;
      c_inj : forall i j q q', i <= k -> j <= k -> In q (V (gg i)) -> In q' (V (gg j)) -> mm i q = mm j q' -> i = j /\ q = q';
      c_T : forall p a r, ntrans g' p a r <-> (exists i q s, i <= k /\ ntrans (gg i) q a s /\ p = mm i q /\ r = mm i s) \/
              (exists i, i < k /\ p = mm i (ff i) /\ a = eps /\ r = mm (S i) (qq (S i))) }.

    Lemma chain_0 : chain 0 (fun _ q => q) (gg 0).
    Proof.
      destruct (GG 0) as [P F]. constructor.
      - exact P.
      - intros v. split; [intros X; exists 0, v; auto|]. intros (i & q & Hi & I & ->). assert (i = 0) by lia. subst i. exact I.
      - intros i j q q' Hi Hj _ _ E. split; [lia|exact E].
      - intros p a r. split; [intros X; left; exists 0, p, r; auto|]. intros [(i & q & s & Hi & X & -> & ->)|(i & Hi & _)]; [|lia].
        assert (i = 0) by lia. subst i. exact X.
    Qed.

    Lemma chain_step k mm g' : chain k mm g' ->
      exists g'' mm', concatenation (g', mm 0 (qq 0), mm k (ff k)) (gg (S k), qq (S k), ff (S k)) = Ok (g'', mm' 0 (qq 0), mm' (S k) (ff (S k))) /\
        chain (S k) mm' g'' /\ nf_final g'' (mm' (S k) (ff (S k))) = true /\ (forall i, i <= k -> mm' i = mm i) /\
        (forall n q, V (gg (S k)) = seq 0 n -> q < n -> mm' (S k) q = nf_last g' + q).
    Proof.
      intros [P CV CI CT].
      destruct (concatenation_desc eps g' (mm 0 (qq 0)) (mm k (ff k)) (gg (S k)) (qq (S k)) (ff (S k)) P (GG (S k)))
        as (g'' & m & E & G & Ll & Vg & Gm & Gi & T & GN & _).
      destruct G as [P2 F2].
      assert (Ve : forall v, In v (V g') -> v < nf_last g') by apply P.
      set (mm' := fun i => if i <=? k then mm i else m).
      assert (M1 : forall i, i <= k -> mm' i = mm i) by (intros i Hi; unfold mm'; destruct (Nat.leb_spec i k); [reflexivity|lia]).
      assert (M2 : mm' (S k) = m) by (unfold mm'; destruct (Nat.leb_spec (S k) k); [lia|reflexivity]).
      exists g'', mm'. rewrite M2, (M1 0) by lia. split; [exact E|]. split; [|split; [exact F2|split; [exact M1|exact GN]]].
      constructor.
      - rewrite M2, (M1 0) by lia. exact P2.
      - intros v. rewrite Vg, CV. split.
        + intros [(i & q & Hi & I & ->)|(q & I & ->)]; [exists i, q|exists (S k), q]; rewrite ?M2, ?M1 by lia; auto.
        + intros (i & q & Hi & I & ->). destruct (Nat.eq_dec i (S k)) as [->|N]; [right; exists q; rewrite M2; auto|].
          left. exists i, q. rewrite M1 by lia. repeat split; auto. lia.
      - intros i j q q' Hi Hj I I' Em.
        destruct (Nat.eq_dec i (S k)) as [->|Ni], (Nat.eq_dec j (S k)) as [->|Nj]; rewrite ?M2, ?M1 in Em by lia.
        + split; [reflexivity|]. apply Gi; assumption.
        + specialize (Gm _ I). assert (X : In (mm j q') (V g')) by (apply CV; exists j, q'; repeat split; auto; lia). apply Ve in X. lia.
        + specialize (Gm _ I'). assert (X : In (mm i q) (V g')) by (apply CV; exists i, q; repeat split; auto; lia). apply Ve in X. lia.
        + apply CI; auto; lia.
      - intros p a r. rewrite T, CT. split.
        + intros [[(i & q & s & Hi & X & -> & ->)|(i & Hi & -> & -> & ->)]|[(q2 & r2 & X & -> & ->)|(-> & -> & ->)]].
          * left. exists i, q, s. rewrite M1 by lia. repeat split; auto.
          * right. exists i. rewrite !M1 by lia. repeat split; auto.
          * left. exists (S k), q2, r2. rewrite M2. repeat split; auto.
          * right. exists k. rewrite M1, M2 by lia. repeat split; auto.
        + intros [(i & q & s & Hi & X & -> & ->)|(i & Hi & -> & -> & ->)].
          * destruct (Nat.eq_dec i (S k)) as [->|N]; [right; left; exists q, s; rewrite M2; auto|].
            left. left. exists i, q, s. rewrite M1 by lia. repeat split; auto. lia.
          * destruct (Nat.eq_dec i k) as [->|N]; [right; right; rewrite M1, M2 by lia; auto|].
            left. right. exists i. rewrite !M1 by lia. repeat split; auto. lia.
    Qed.

    (** the chain with the final jumps from the copies [lo..k-1] *)
    Variables (k lo : nat) (mm : nat -> nat -> nat) (g' g'' : nfa A).
    Hypothesis C : chain k mm g'.
    Hypothesis Lo : lo <= k.
    Hypothesis J : forall p a r, ntrans g'' p a r <-> ntrans g' p a r \/ exists i, lo <= i < k /\ p = mm i (ff i) /\ a = eps /\ r = mm k (ff k).

    (** one word in each of the copies i, .., i + n - 1 *)
    Fixpoint lseq (i n : nat) : lang A := match n with 0 => leps | S n => lcat (Li i) (lseq (S i) n) end.

    Lemma Vi i q : In q (V (gg i)) -> i <= k -> In (mm i q) (V g').
    Proof. intros X Y. apply (c_V _ _ _ C). eauto. Qed.
    Lemma qqV i : In (qq i) (V (gg i)). Proof. destruct (GG i) as [P _]. apply P. Qed.
    Lemma ffV i : In (ff i) (V (gg i)). Proof. destruct (GG i) as [P _]. apply P. Qed.
    Lemma TV i q a r : ntrans (gg i) q a r -> In q (V (gg i)) /\ In r (V (gg i)).
    Proof. destruct (GG i) as [P _]. apply P. Qed.

    (** a transition from a copy *)
    Lemma chain_trans i q a r : i <= k -> In q (V (gg i)) -> ntrans g'' (mm i q) a r ->
      (exists s, ntrans (gg i) q a s /\ r = mm i s) \/ (i < k /\ q = ff i /\ a = eps /\ r = mm (S i) (qq (S i))) \/
      (lo <= i < k /\ q = ff i /\ a = eps /\ r = mm k (ff k)).
    Proof.
      intros Hi Iq X. apply J in X. destruct X as [X|(j & Hj & Ep & -> & ->)].
      - apply (c_T _ _ _ C) in X. destruct X as [(j & q' & s & Hj & X & Ep & ->)|(j & Hj & Ep & -> & ->)].
        + destruct (TV _ _ _ _ X) as [Y _]. apply (c_inj _ _ _ C) in Ep; auto. destruct Ep as [<- <-]. left. exists s. split; [exact X|reflexivity].
        + apply (c_inj _ _ _ C) in Ep; auto; [|lia|apply ffV]. destruct Ep as [<- ->]. right. left. repeat split; lia.
      - apply (c_inj _ _ _ C) in Ep; auto; [|lia|apply ffV]. destruct Ep as [<- ->]. right. right. repeat split; lia.
    Qed.

    Lemma lg_copy i p t w : i <= k -> lg (gg i) p t w -> lg g'' (mm i p) (mm i t) w.
    Proof.
      intros Hi R. unfold lg in *. eapply (nrun_map eps _ _ (mm i)); [|exact R]. intros q a r X. apply J. left. apply (c_T _ _ _ C). left. exists i, q, r. auto.
    Qed.

    (** a run from the state [q] of the copy [i] to the last final state *)
    Lemma chain_from i q w : i <= k -> In q (V (gg i)) -> (lg g'' (mm i q) (mm k (ff k)) w <->
      exists n u v z, w = u ++ v ++ z /\ lg (gg i) q (ff i) u /\ lseq (S i) n v /\ lg (gg k) (ff k) (ff k) z /\ lo <= i + n <= k).
    Proof.
      intros Hi Iq. split.
      - assert (X : forall p, lg g'' p (mm k (ff k)) w -> forall i q, i <= k -> In q (V (gg i)) -> p = mm i q -> exists n u v z, w = u ++ v ++ z /\ lg (gg i) q (ff i) u /\
          lseq (S i) n v /\ lg (gg k) (ff k) (ff k) z /\ lo <= i + n <= k); [|intros R; eapply X; [exact R|exact Hi|exact Iq|reflexivity]].
        clear i q Hi Iq. intros p. apply (run_ind g'' (mm k (ff k)) (fun p w => forall i q, i <= k -> In q (V (gg i)) -> p = mm i q ->
            exists n u v z, w = u ++ v ++ z /\ lg (gg i) q (ff i) u /\ lseq (S i) n v /\ lg (gg k) (ff k) (ff k) z /\ lo <= i + n <= k)).
          + intros i q Hi Iq E. apply (c_inj _ _ _ C) in E; auto; [|apply ffV]. destruct E as [<- <-]. exists 0, [], [], [].
            repeat split; try constructor; lia.
          + intros p1 a r w1 u X St IH i q Hi Iq ->. apply chain_trans in X; auto. destruct X as [(s & X & ->)|[(Li' & -> & -> & ->)|(Li' & -> & -> & ->)]].
            * destruct (TV _ _ _ _ X) as [_ Is]. destruct (IH i s Hi Is eq_refl) as (n & u1 & v & z & -> & X1 & X2).
              destruct (step_app _ _ _ _ _ St eq_refl) as (u' & -> & St'). exists n, u', v, z. split; [reflexivity|]. split; [eapply lg_step; eassumption|exact X2].
            * destruct St as [(_ & ->)|(N & _)]; [|contradiction]. destruct (IH (S i) (qq (S i)) Li' (qqV _) eq_refl) as (n & u1 & v & z & -> & X1 & X2 & X3 & X4).
              exists (S n), [], (u1 ++ v), z. split; [rewrite <- app_assoc; reflexivity|]. split; [constructor|]. split; [apply lcat_app; assumption|]. split; [exact X3|lia].
            * destruct St as [(_ & ->)|(N & _)]; [|contradiction]. destruct (IH k (ff k) (le_n k) (ffV _) eq_refl) as (n & u1 & v & z & -> & X1 & X2 & X3 & X4).
              assert (n = 0) by lia. subst n. exists 0, [], [], (u1 ++ z). cbn in X2. unfold leps in X2. subst v. split; [reflexivity|]. split; [constructor|]. split; [reflexivity|].
              split; [eapply nrun_app; eassumption|lia].
      - intros (j & u & v & z & -> & X1 & X2 & X3 & Hj).
        assert (HS : forall n i p u v, i + n <= k -> lg (gg i) p (ff i) u -> lseq (S i) n v -> lg g'' (mm i p) (mm (i + n) (ff (i + n))) (u ++ v)).
        { clear - C J. induction n as [|n IH]; intros i p u v Hi X Y.
          - cbn in Y. unfold leps in Y. subst v. rewrite app_nil_r, Nat.add_0_r. apply lg_copy; [lia|exact X].
          - destruct Y as (v1 & v2 & -> & Y & Z). unfold lg. eapply nrun_app; [apply lg_copy; [lia|exact X]|].
            eapply nrun_eps; [|replace (i + S n) with (S i + n) by lia; apply IH; [lia|exact Y|exact Z]].
            apply J. left. apply (c_T _ _ _ C). right. exists i. repeat split; lia. }
        pose proof (HS j i q u v ltac:(lia) X1 X2) as X. rewrite app_assoc. unfold lg. eapply nrun_app; [exact X|].
        destruct (Nat.eq_dec (i + j) k) as [->|N]; [apply lg_copy; [lia|exact X3]|].
        eapply nrun_eps; [|apply lg_copy; [lia|exact X3]]. apply J. right. exists (i + j). repeat split; lia.
    Qed.

    Lemma chain_lang w : lg g'' (mm 0 (qq 0)) (mm k (ff k)) w <->
      exists j, lo <= j <= k /\ lcat (lseq 0 (S j)) (lg (gg k) (ff k) (ff k)) w.
    Proof.
      rewrite (chain_from 0 (qq 0) w (Nat.le_0_l _) (qqV 0)). split.
      - intros (n & u & v & z & -> & X1 & X2 & X3 & X4). exists n. split; [lia|]. rewrite app_assoc. apply lcat_app; [|exact X3]. apply lcat_app; assumption.
      - intros (j & Hj & w1 & z & -> & (u & v & -> & X1 & X2) & X3). exists j, u, v, z. rewrite <- app_assoc. repeat split; auto; lia.
    Qed.

    Lemma chain_Q w : 1 <= k -> (lg g'' (mm 0 (qq 0)) (mm 0 (qq 0)) w <-> lg (gg 0) (qq 0) (qq 0) w).
    Proof.
      intros K. split; [|apply lg_copy; lia]. intros R.
      assert (X : forall i q, i <= k -> In q (V (gg i)) -> mm 0 (qq 0) = mm i q -> i = 0 /\ lg (gg 0) q (qq 0) w).
      { revert R. apply (run_ind g'' (mm 0 (qq 0)) (fun p w => forall i q, i <= k -> In q (V (gg i)) -> p = mm i q -> i = 0 /\ lg (gg 0) q (qq 0) w)).
        - intros i q Hi Iq E. apply (c_inj _ _ _ C) in E; auto; [|lia|apply qqV]. destruct E as [<- <-]. split; [reflexivity|constructor].
        - intros p a r w1 u X St IH i q Hi Iq ->. apply chain_trans in X; auto. destruct X as [(s & X & ->)|[(Li' & -> & -> & ->)|(Li' & -> & -> & ->)]].
          + destruct (TV _ _ _ _ X) as [_ Is]. destruct (IH i s Hi Is eq_refl) as [-> Y]. split; [reflexivity|]. eapply lg_step; eassumption.
          + destruct (IH (S i) (qq (S i)) Li' (qqV _) eq_refl) as [Y _]. discriminate.
          + destruct (IH k (ff k) (le_n k) (ffV _) eq_refl) as [Y _]. lia. }
      destruct (X 0 (qq 0) (Nat.le_0_l _) (qqV _) eq_refl) as [_ Y]. exact Y.
    Qed.

    Lemma chain_F w : lg g'' (mm k (ff k)) (mm k (ff k)) w <-> lg (gg k) (ff k) (ff k) w.
    Proof.
      split; [|apply lg_copy; lia]. intros R.
      assert (X : forall q, In q (V (gg k)) -> mm k (ff k) = mm k q -> lg (gg k) q (ff k) w); [|apply (X (ff k)); [apply ffV|reflexivity]].
      revert R. apply (run_ind g'' (mm k (ff k)) (fun p w => forall q, In q (V (gg k)) -> p = mm k q -> lg (gg k) q (ff k) w)).
      - intros q Iq E. apply (c_inj _ _ _ C) in E; auto; [|apply ffV]. destruct E as [_ <-]. constructor.
      - intros p a r w1 u X St IH q Iq ->. apply chain_trans in X; auto. destruct X as [(s & X & ->)|[(Li' & _)|(Li' & _)]]; [|lia|lia].
        destruct (TV _ _ _ _ X) as [_ Is]. eapply lg_step; [exact X|exact St|]. apply IH; auto.
    Qed.

    Lemma chain_B w : 1 <= k -> ~ lg g'' (mm k (ff k)) (mm 0 (qq 0)) w.
    Proof.
      intros K R. assert (X : forall q, In q (V (gg k)) -> mm k (ff k) = mm k q -> False); [|apply (X (ff k)); [apply ffV|reflexivity]].
      revert R. apply (run_ind g'' (mm 0 (qq 0)) (fun p w => forall q, In q (V (gg k)) -> p = mm k q -> False)).
      - intros q Iq E. apply (c_inj _ _ _ C) in E; auto; [|lia|apply qqV]. lia.
      - intros p a r w1 u X St IH q Iq ->. apply chain_trans in X; auto. destruct X as [(s & X & ->)|[(Li' & _)|(Li' & _)]]; [|lia|lia].
        destruct (TV _ _ _ _ X) as [_ Is]. eapply IH; [exact Is|reflexivity].
    Qed.
  End Chain.
End P.
