(** Theorems C122: words that contain the epsilon symbol of the automaton. *)
From Verif Require Import Base BaseProofs Graph GraphProofs Automaton AutomatonProofs Nfa NfaSpec NfaProofs NfaProofs2 NfaWordSpec TNfa.

Section T.
  Context {A : Type} {EA : EqDec A}.

  Lemma reads_ext (T T' : nat -> A -> nat -> Prop) eps q w t :
    (forall q a r, T q a r -> T' q a r) -> reads T eps q w t -> reads T' eps q w t.
  Proof. intros HT. induction 1; [constructor|eapply reads_silent; eauto|eapply reads_symbol; eauto]. Qed.

  Section R.
    Context (T : nat -> A -> nat -> Prop) (eps : A).
    Lemma reads_eps_star q t : reads T eps q [] t <-> eps_star T eps q t.
    Proof.
      split.
      - remember [] as w eqn:E. induction 1; [constructor|econstructor; eauto|discriminate].
      - induction 1; [constructor|eapply reads_silent; eauto].
    Qed.
    Lemma reads_pre q r w t : eps_star T eps q r -> reads T eps r w t -> reads T eps q w t.
    Proof. induction 1; [auto|]. intros. eapply reads_silent; eauto. Qed.
    Lemma reads_cons_inv q a w t : reads T eps q (a :: w) t ->
      exists p r, eps_star T eps q p /\ T p a r /\ reads T eps r w t.
    Proof.
      remember (a :: w) as u eqn:E. induction 1 as [|q r t u X Y IH|q b r t u X Y IH]; [discriminate| |].
      - destruct (IH E) as (p & r' & P1 & P2). exists p, r'. split; [|exact P2]. econstructor; eassumption.
      - injection E as -> ->. exists q, r. split; [constructor|]. auto.
    Qed.
    (** on words without epsilon, these are the runs of C23 *)
    Lemma reads_nrun q w t : ~ In eps w -> reads T eps q w t <-> nrun T eps q w t.
    Proof.
      intros NE. split; intros H.
      - revert NE. induction H as [|q r t w X Y IH|q a r t w X Y IH]; intros NE.
        + constructor.
        + eapply nrun_eps; [exact X|exact (IH NE)].
        + eapply nrun_cons; [intros ->; apply NE; left; reflexivity|exact X|]. apply IH. intros I. apply NE. right. exact I.
      - clear NE. induction H; [constructor|eapply reads_silent; eassumption|eapply reads_symbol; eassumption].
    Qed.
  End R.

  Section G.
    Context (g : nfa A).
    Notation T := (ntrans g).
    Notation eps := (nf_eps g).
    Lemma reads_step qs a s w t : closed g qs -> (forall t, In t s <-> exists q, In q qs /\ wide g q a t) ->
      (exists q, In q s /\ reads T eps q w t) <-> exists q, In q qs /\ reads T eps q (a :: w) t.
    Proof.
      intros C HS. split.
      - intros (x & Ix & R). apply HS in Ix. destruct Ix as (q & Iq & p & r & X & Y & Z). exists q. split; [exact Iq|].
        eapply reads_pre; [exact X|]. eapply reads_symbol; [exact Y|]. eapply reads_pre; eassumption.
      - intros (q & Iq & R). apply reads_cons_inv in R. destruct R as (p & r & X & Y & Z). exists r. split; [|exact Z].
        apply HS. exists q. split; [exact Iq|]. exists p, r. split; [exact X|]. split; [exact Y|constructor].
    Qed.
    Lemma word_loop_reads w : forall qs, closed g qs ->
      exists s, word_loop g qs w = Some s /\ forall t, In t s <-> exists q, In q qs /\ reads T eps q w t.
    Proof.
      induction w as [|a w IH]; intros qs C; cbn [word_loop].
      - exists qs. split; [reflexivity|]. intros t. split.
        + intros I. exists t. split; [exact I|constructor].
        + intros (q & I & R). apply reads_eps_star in R. eapply C; eassumption.
      - destruct qs as [|x qs'] eqn:EQ.
        + exists []. split; [reflexivity|]. intros t. split; [intros []|intros (q & [] & _)].
        + rewrite <- EQ in *. destruct (step_spec g qs a) as (s1 & -> & H1). cbn [obind].
          destruct (IH s1 (closed_step _ _ _ _ H1)) as (s & E & H2).
          exists s. split; [exact E|]. intros t. rewrite H2. apply reads_step; assumption.
    Qed.
    Lemma N_delta_word_reads w : exists s, N_delta_word g w = Some s /\
      forall t, In t s <-> exists q, In q (nf_init g) /\ reads T eps q w t.
    Proof.
      unfold N_delta_word. destruct (delta_epsilon_spec g (nf_init g)) as (s0 & -> & H0). cbn [obind].
      destruct (word_loop_reads w s0 (closed_eps _ _ _ H0)) as (s & E & H). exists s. split; [exact E|].
      intros t. rewrite H. split.
      - intros (p & Ip & R). apply H0 in Ip. destruct Ip as (q & Iq & St). exists q. split; [exact Iq|]. eapply reads_pre; eassumption.
      - intros (q & Iq & R). exists q. split; [|exact R]. apply H0. exists q. split; [exact Iq|constructor].
    Qed.
  End G.

  (** C122: delta_word computes, for any word, the states reached by the paths that read it. *)
  Theorem C122_delta_word n ini (eps : A) ops w :
    exists s, N_delta_word (built n ini eps ops) w = Some s /\
      forall t, In t s <-> exists q, In q (an_I (described n ini ops)) /\ reads (steps (described n ini ops)) eps q w t.
  Proof.
    pose proof (N_runs_rep n ini eps ops) as R. fold (built n ini eps ops) in R. fold (described n ini ops) in R.
    destruct (N_delta_word_reads (built n ini eps ops) w) as (s & E & H). exists s. split; [exact E|]. intros t.
    rewrite H, (r_I _ _ _ R), (r_eps _ _ _ R).
    split; intros (q & I & X); exists q; (split; [exact I|]);
      (eapply reads_ext; [|exact X]); intros p a r Y; apply (r_T _ _ _ R); exact Y.
  Qed.

  (** C122: accepts decides whether a path that reads the word leads to a final state. *)
  Theorem C122_accepts n ini (eps : A) ops w :
    exists b, N_accepts (built n ini eps ops) w = Some b /\
      (b = true <-> exists q t, In q (an_I (described n ini ops)) /\ reads (steps (described n ini ops)) eps q w t /\
                                an_F (described n ini ops) t = true).
  Proof.
    pose proof (N_runs_rep n ini eps ops) as R. fold (built n ini eps ops) in R. fold (described n ini ops) in R.
    destruct (C122_delta_word n ini eps ops w) as (s & E & H). unfold N_accepts. rewrite E. cbn [obind].
    eexists. split; [reflexivity|]. rewrite existsb_exists. unfold N_is_final. split.
    - intros (t & It & F). apply H in It. destruct It as (q & Iq & X). exists q, t. split; [exact Iq|]. split; [exact X|].
      rewrite <- (r_F _ _ _ R). exact F.
    - intros (q & t & Iq & X & F). exists t. split; [apply H; exists q; auto|]. rewrite (r_F _ _ _ R). exact F.
  Qed.

  (** C122: the deterministic automaton rejects every word that contains epsilon. *)
  Theorem C122_determination n ini (eps : A) ops complete opop osym fuel :
    let g := built n ini eps ops in
    valid_order opop -> valid_order osym -> 2 ^ (length (nf_init g) + N_num_edges g) + 1 <= fuel ->
    exists d, moore_determination g complete opop osym fuel = Some (d, Ok tt) /\
      forall w, In eps w -> A_accepts d w = false.
  Proof.
    intros g OP OS L. pose proof (N_runs_rep n ini eps ops) as R. fold (built n ini eps ops) in R. fold g in R.
    destruct (moore_run g complete opop osym OP OS fuel) as (d & E & _ & _ & HV & _).
    { assert (X : length (universe g) <= length (nf_init g) + N_num_edges g).
      { unfold universe, N_num_edges. rewrite <- (map_length target (N_edges g)). rewrite <- app_length. apply NoDup_incl_length; [apply NoDup_sof|].
        intros x. apply In_sof. }
      assert (Y : 2 ^ length (universe g) <= 2 ^ (length (nf_init g) + N_num_edges g)) by (apply Nat.pow_le_mono_r; lia). lia. }
    exists d. split; [exact E|]. intros w I. unfold A_accepts.
    assert (X : forall w q, In eps w -> A_delta_word d q w = None).
    { assert (XN : forall w, A_delta_word d None w = None) by (intros [|? ?]; reflexivity).
      clear w I. induction w as [|a w IH]; intros [q|] I; [destruct I|destruct I| |apply XN].
      cbn [A_delta_word]. destruct I as [->|I]; [|apply IH, I].
      destruct (A_delta d q eps) as [r|] eqn:D; [|apply XN]. exfalso. destruct (HV _ _ _ D) as (_ & _ & N). apply N. symmetry. apply (r_eps _ _ _ R). }
    rewrite X; [reflexivity|exact I].
  Qed.
End T.

(** ** Concrete cases: epsilon is 0. The word [0; 5] needs one epsilon transition before 5; the word
    [5; 0; 0] needs two after 5, and there is one only. *)
Example ex_C122_accepts :
  map (N_accepts (built 4 [] 0 ex_ops)) [[0; 5]; [5; 0]; [5; 0; 0]; [0; 0; 0; 5]; [0]] =
    [Some true; Some true; Some false; Some true; Some false] /\
  match moore_determination (built 4 [] 0 ex_ops) true (fun _ l => l) (fun _ l => rev l) 100 with
  | Some (d, Ok _) => map (A_accepts d) [[5]; [0; 5]; [5; 0]] = [true; false; false]
  | _ => False
  end.
Proof. vm_compute. auto. Qed.
(** An automaton and a word of it on which the two acceptances disagree *)
Theorem C122_disagree : exists ops w,
  N_accepts (built 4 [] 0 ops) w = Some true /\
  match moore_determination (built 4 [] 0 ops) false (fun _ l => l) (fun _ l => l) 100 with
  | Some (d, Ok _) => A_accepts d w = false
  | _ => False
  end.
Proof. exists ex_ops, [0; 5]. vm_compute. auto. Qed.

Print Assumptions C122_delta_word.
Print Assumptions C122_accepts.
Print Assumptions C122_determination.
Print Assumptions C122_disagree.
