(** Theorems C25, C26, C27: the Thompson constructions. *)
From Coq Require Import Permutation.
From Verif Require Import Base BaseProofs Graph Automaton Nfa NfaSpec NfaProofs Thompson ThompsonSpec ThompsonProofs ThompsonProofs2 ThompsonProofs3 ThompsonProofs4 ThompsonProofs5.

Section T.
  Context {A : Type} {EA : EqDec A}.
  Variable eps : A.
  Notation frag := (nfa A * nat * nat)%type.
  Notation acc := accepted.

  (** the two languages agree on the words without epsilon *)
  Definition same_words (L1 L2 : lang A) : Prop := forall w, ~ In eps w -> (L1 w <-> L2 w).

  Lemma acc_L x : good eps x -> same_words (acc x) (L eps x).
  Proof. destruct x as [[g q0] f]. intros G w NE. exact (accepts_L eps g q0 f w G NE). Qed.
  Lemma sw_trans L1 L2 L3 : same_words L1 L2 -> same_words L2 L3 -> same_words L1 L3.
  Proof. intros H1 H2 w N. rewrite (H1 w N). apply H2. exact N. Qed.
  Lemma sw_sym L1 L2 : same_words L1 L2 -> same_words L2 L1.
  Proof. intros H1 w N. symmetry. apply H1. exact N. Qed.
  Lemma sw_iff (L1 L2 : lang A) : (forall w, L1 w <-> L2 w) -> same_words L1 L2.
  Proof. intros HL w _. apply HL. Qed.
  Lemma sw_cat L1 L2 M1 M2 : same_words L1 L2 -> same_words M1 M2 -> same_words (lcat L1 M1) (lcat L2 M2).
  Proof.
    intros H1 H2 w N. split; intros (u & v & -> & X & Y); assert (N1 : ~ In eps u /\ ~ In eps v) by (rewrite in_app_iff in N; tauto);
      exists u, v; (split; [reflexivity|]); split; try apply H1; try apply H2; tauto.
  Qed.
  Lemma sw_pow L1 L2 n : same_words L1 L2 -> same_words (lpow L1 n) (lpow L2 n).
  Proof. intros HL. induction n as [|n IH]; cbn [lpow]; [intros w _; reflexivity|]. apply sw_cat; assumption. Qed.
  Lemma sw_range L1 L2 m n : same_words L1 L2 -> same_words (lrange L1 m n) (lrange L2 m n).
  Proof. intros HL w N. split; intros (k & H1 & H2 & X); exists k; (split; [exact H1|]); (split; [exact H2|]); apply (sw_pow _ _ k HL w N); exact X. Qed.
  Lemma sw_star L1 L2 : same_words L1 L2 -> same_words (lstar L1) (lstar L2).
  Proof. intros HL w N. split; intros (k & X); exists k; apply (sw_pow _ _ k HL w N); exact X. Qed.
  Lemma sw_plus L1 L2 : same_words L1 L2 -> same_words (lplus L1) (lplus L2).
  Proof. intros HL w N. split; intros (k & H1 & X); exists k; (split; [exact H1|]); apply (sw_pow _ _ k HL w N); exact X. Qed.
  Lemma sw_alt L1 L2 M1 M2 : same_words L1 L2 -> same_words M1 M2 -> same_words (lalt L1 M1) (lalt L2 M2).
  Proof. intros H1 H2 w N. unfold lalt. rewrite (H1 w N), (H2 w N). reflexivity. Qed.

  (** a result: no exception, one initial state and one final state again, and the expected language *)
  Definition computes (r : res frag) (Lang : lang A) : Prop :=
    exists x, r = Ok x /\ good eps x /\ same_words (acc x) Lang.

  Lemma sem_computes r x Lx Q F B Lang : r = Ok x -> sem eps x Lx Q F B -> same_words Lx Lang -> computes r Lang.
  Proof.
    intros E S HL. exists x. split; [exact E|]. split; [apply S|]. eapply sw_trans; [apply acc_L; apply S|]. eapply sw_trans; [|exact HL].
    apply sw_iff. exact (sem_L eps _ _ _ _ _ S).
  Qed.

  (** C25: the constructions on arbitrary NFAs with one initial and one final state. *)
  Theorem C25_literal a : a <> eps -> computes (Ok (literal eps a)) (lsym (eq a)).
  Proof. intros N. eapply sem_computes; [reflexivity|exact (sem_literal eps a N)|]. intros w _. reflexivity. Qed.
  Theorem C25_bracket chars : ~ In eps chars -> computes (Ok (bracket eps chars)) (lsym (fun a => In a chars)).
  Proof. intros N. eapply sem_computes; [reflexivity|exact (sem_bracket eps chars N)|]. intros w _. reflexivity. Qed.
  Theorem C25_concatenation x1 x2 : good eps x1 -> good eps x2 -> computes (concatenation x1 x2) (lcat (acc x1) (acc x2)).
  Proof.
    intros G1 G2. destruct (sem_good eps x1 G1) as (Q1 & F1 & B1 & S1), (sem_good eps x2 G2) as (Q2 & F2 & B2 & S2).
    destruct (sem_cat eps _ _ _ _ _ _ _ _ _ _ S1 S2) as (x & E & S & _). eapply sem_computes; [exact E|exact S|].
    apply sw_cat; apply sw_sym, acc_L; assumption.
  Qed.
  Theorem C25_alternation x1 x2 : good eps x1 -> good eps x2 -> computes (alternation x1 x2) (lalt (acc x1) (acc x2)).
  Proof.
    intros G1 G2. destruct (sem_good eps x1 G1) as (Q1 & F1 & B1 & S1), (sem_good eps x2 G2) as (Q2 & F2 & B2 & S2).
    destruct (sem_alt eps _ _ _ _ _ _ _ _ _ _ S1 S2) as (x & E & S). eapply sem_computes; [exact E|exact S|].
    apply sw_alt; apply sw_sym, acc_L; assumption.
  Qed.
  (** A fragment whose initial or final state is not one of its states is refused with KeyError. *)
  Theorem C25_missing_state (x1 : nfa A * nat * nat) (g : nfa A) q0 f : ~ In q0 (N_vertices g) \/ ~ In f (N_vertices g) ->
    concatenation x1 (g, q0, f) = Raise KeyError /\ alternation x1 (g, q0, f) = Raise KeyError.
  Proof.
    intros N. destruct x1 as [[g1 q1] f1].
    assert (KEYS : forall qs (h : nfa A) m q, In q (dkeys (snd (insert_vertices g qs h m))) -> In q qs \/ In q (dkeys m)).
    { induction qs as [|r qs IH]; intros h m q I; cbn [insert_vertices snd] in I; [auto|]. destruct (dmem m r); [destruct (IH _ _ _ I); cbn; auto|].
      destruct (add_vertex h) as [h' q']. destruct (IH _ _ _ I) as [J|J]; [cbn; auto|]. apply In_dkeys_dset in J. cbn. destruct J as [->|J]; auto. }
    assert (EDGES : forall es (h : nfa A) m, insert_edges es h m = Raise KeyError \/ exists h', insert_edges es h m = Ok h').
    { induction es as [|e es IH]; intros h m; cbn [insert_edges]; [eauto|]. destruct (dget m (source e)), (dget m (target e)); auto. }
    assert (LOOK : forall m q, ~ In q (dkeys m) -> lookup m q = Raise KeyError) by (intros m q I; unfold lookup; rewrite (proj2 (dget_None m q) I); reflexivity).
    assert (LOOK2 : forall m q, lookup m q = Raise KeyError \/ exists r, lookup m q = Ok r) by (intros m q; unfold lookup; destruct (dget m q); eauto).
    unfold concatenation, alternation, insert_automaton. specialize (KEYS (N_vertices g) g1 []). destruct (insert_vertices g (N_vertices g) g1 []) as [g2 m]. cbn [snd] in KEYS.
    destruct (EDGES (N_edges g) g2 m) as [->|[h ->]]; [auto|]. cbn [rbind].
    assert (K : forall q, ~ In q (N_vertices g) -> lookup m q = Raise KeyError) by (intros q J; apply LOOK; intros I; destruct (KEYS q I) as [I'|[]]; auto).
    destruct N as [N|N]; pose proof (K _ N) as E.
    - split; [rewrite E; reflexivity|]. destruct (add_vertex h) as [h' n]. rewrite E. reflexivity.
    - split; [|destruct (add_vertex h) as [h' n]]; (destruct (LOOK2 m q0) as [->|[r ->]]; [reflexivity|]); cbn [rbind]; [rewrite E; reflexivity|]. destruct (add_vertex _) as [h2 n2]. rewrite E. reflexivity.
  Qed.
  Theorem C25_zero_or_more x : good eps x -> computes (Ok (zero_or_more x)) (lstar (acc x)).
  Proof.
    intros G. destruct (sem_good eps x G) as (Q & F & B & S). eapply sem_computes; [reflexivity|exact (sem_star eps _ _ _ _ _ S)|].
    apply sw_star, sw_sym, acc_L, G.
  Qed.
  Theorem C25_one_or_more x : good eps x -> computes (Ok (one_or_more x)) (lplus (acc x)).
  Proof.
    intros G. destruct (sem_good eps x G) as (Q & F & B & S). eapply sem_computes; [reflexivity|exact (sem_plus eps _ _ _ _ _ S)|].
    apply sw_plus, sw_sym, acc_L, G.
  Qed.
  Theorem C25_repetition x m : good eps x -> computes (repetition eps x m) (lpow (acc x) m).
  Proof.
    intros G. destruct m as [|m].
    - cbn [repetition lpow]. eexists. split; [reflexivity|]. split; [exact (unit_good eps)|]. eapply sw_trans; [apply acc_L, unit_good|].
      intros w _. etransitivity; [exact (unit_runs eps 0 0 w)|]. unfold leps. tauto.
    - destruct (sem_good eps x G) as (Q & F & B & S). destruct (sem_repetition eps x _ _ _ _ m S) as (x' & E & S' & _).
      eapply sem_computes; [exact E|exact S'|]. apply sw_pow, sw_sym, acc_L, G.
  Qed.

  (** C26: what zero_or_one computes. Besides the words of the argument, it accepts the words read by going from
      q0 to q0, then any number of times from f back to q0, then from f to f. *)
  Definition read (g : nfa A) (p t : nat) : lang A := fun w => nrun (ntrans g) eps p w t.
  Definition shortcuts (x : frag) : lang A :=
    let '(g, q0, f) := x in lcat (read g q0 q0) (lcat (lstar (read g f q0)) (read g f f)).

  Theorem C26_zero_or_one_exact_partial x : good eps x -> computes (Ok (zero_or_one x)) (lalt (acc x) (shortcuts x)).
  Proof.
    intros G. destruct x as [[g q0] f]. assert (S : sem eps (g, q0, f) (read g q0 f) (read g q0 q0) (read g f f) (read g f q0)).
    { split; [exact G|]. intros w. repeat split; auto. }
    destruct (sem_opt eps _ _ _ _ _ S) as [S' _]. eapply sem_computes; [reflexivity|exact S'|].
    apply sw_alt; [|intros w _; reflexivity]. apply sw_sym. exact (acc_L _ G).
  Qed.

  (** so zero_or_one is right exactly when the shortcuts read no other word than those of L | {empty word}, *)
  Theorem C26_zero_or_one_iff_partial x : good eps x ->
    (computes (Ok (zero_or_one x)) (lopt (acc x)) <-> forall w, ~ In eps w -> shortcuts x w -> lopt (acc x) w).
  Proof.
    intros G. destruct (C26_zero_or_one_exact_partial x G) as (y & E & Gy & H). injection E as <-. split.
    - intros (y & E & _ & H2) w N X. injection E as <-. apply (H2 w N). apply (H w N). right. exact X.
    - intros HS. exists (zero_or_one x). split; [reflexivity|]. split; [exact Gy|]. intros w N. rewrite (H w N). split.
      + intros [X|X]; [right; exact X|]. apply HS; assumption.
      + intros [->|X]; [right|left; exact X]. destruct x as [[g q0] f]. exists [], []. split; [reflexivity|]. split; [constructor|].
        exists [], []. split; [reflexivity|]. split; [exists 0; reflexivity|constructor].
  Qed.

  (** which is the case when no transition enters q0 and no transition leaves f. *)
  Theorem C26_zero_or_one_clean_partial g q0 f : good eps (g, q0, f) ->
    (forall q a, ~ ntrans g q a q0) -> (forall a r, ~ ntrans g f a r) -> computes (Ok (zero_or_one (g, q0, f))) (lopt (acc (g, q0, f))).
  Proof.
    intros G C1 C2. apply (C26_zero_or_one_iff_partial (g, q0, f) G). intros w _ (u & v & -> & X & (v1 & v2 & -> & (n & Y) & Z)).
    assert (F : forall t z, read g f t z -> t = f /\ z = []).
    { intros t z R. apply run_first in R. destruct R as [(<- & ->)|(a & r & z' & R & _)]; [auto|]. destruct (C2 _ _ R). }
    apply run_last in X. destruct X as [(_ & ->)|(q & a & z & X & _)]; [|destruct (C1 _ _ X)]. apply F in Z. destruct Z as [_ ->].
    left. unfold leps. rewrite app_nil_r. cbn. revert v1 Y. induction n as [|n IH]; intros v1 Y; [exact Y|].
    destruct Y as (z1 & z2 & -> & Y1 & Y2). apply F in Y1. destruct Y1 as [_ ->]. exact (IH z2 Y2).
  Qed.

  (** C27: repetition_range is right for every m >= 1, and for m = 0 without upper bound. *)
  Theorem C27_repetition_range_partial ord x m n : valid_order ord -> good eps x ->
    match n with Some n => 1 <= m <= n | None => True end ->
    computes (repetition_range eps ord x m n) (lrange (acc x) m n).
  Proof.
    intros VO G Hmn. destruct (sem_good eps x G) as (Q & F & B & S). pose proof (sw_sym _ _ (acc_L x G)) as HL.
    destruct n as [n|].
    - destruct (sem_range eps ord x _ _ _ _ m n VO S) as (x' & E & S' & _); [lia|lia|]. eapply sem_computes; [exact E|exact S'|]. apply sw_range, HL.
    - destruct m as [|[|m]].
      + assert (E : repetition_range eps ord x 0 None = Ok (zero_or_more x)) by (destruct x as [[? ?] ?]; reflexivity).
        eapply sem_computes; [exact E|exact (sem_star eps _ _ _ _ _ S)|].
        eapply sw_trans; [apply sw_star, HL|]. intros w _. split; intros (k & X); exists k; [split; [lia|]; split; [trivial|exact X]|apply X].
      + assert (E : repetition_range eps ord x 1 None = Ok (one_or_more x)) by (destruct x as [[? ?] ?]; reflexivity).
        eapply sem_computes; [exact E|exact (sem_plus eps _ _ _ _ _ S)|].
        eapply sw_trans; [apply sw_plus, HL|]. intros w _. split; intros (k & X); exists k; [|]; tauto.
      + destruct (sem_unbounded eps ord x _ _ _ _ (Datatypes.S (Datatypes.S m)) S) as (x' & E & S' & _); [lia|]. eapply sem_computes; [exact E|exact S'|]. apply sw_range, HL.
  Qed.

  (** For m = 0 and n >= 2, it is right when the initial state of the argument is 0 and no transition leaves f;
      the bounds (0, 1) are zero_or_one, and m > n fails the assertion. *)
  Theorem C27_repetition_range_0_partial ord g f n : valid_order ord -> good eps (g, 0, f) -> (forall a r, ~ ntrans g f a r) -> n <> 1 ->
    computes (repetition_range eps ord (g, 0, f) 0 (Some n)) (lrange (acc (g, 0, f)) 0 (Some n)).
  Proof.
    intros VO G C2 Hn. pose proof (sw_sym _ _ (acc_L _ G)) as HL. destruct (sem_good eps _ G) as (Q & F & B & S).
    destruct n as [|[|n]]; [| lia |].
    - destruct (sem_range00 eps ord _ _ _ _ _ VO S eq_refl) as (x' & E & S' & _). eapply sem_computes; [exact E|exact S'|].
      intros w _. unfold leps, lrange. split; [intros ->; exists 0; repeat split; lia|]. intros (k & _ & Hk & X). replace k with 0 in X by lia. exact X.
    - destruct (sem_range0 eps ord _ _ _ _ _ (Datatypes.S (Datatypes.S n)) VO S eq_refl) as (x' & E & S' & _); [lia|]. eapply sem_computes; [exact E|exact S'|].
      apply (sw_trans _ (lrange (L eps (g, 0, f)) 0 (Some (Datatypes.S (Datatypes.S n))))); [|apply sw_range, HL]. intros w _. split; [intros [X|X]; [|exact X]|intros X; right; exact X].
      destruct S as [_ S]. apply (S w) in X. apply run_first in X. destruct X as [(_ & ->)|(a & r & z' & R & _)]; [|destruct (C2 _ _ R)].
      exists 0. repeat split; lia.
  Qed.
  (** Without the hypothesis on f, the words read from f to f are accepted as well; *)
  Theorem C27_repetition_range_0_exact_partial ord g f n : valid_order ord -> good eps (g, 0, f) -> 2 <= n ->
    computes (repetition_range eps ord (g, 0, f) 0 (Some n)) (lalt (read g f f) (lrange (acc (g, 0, f)) 0 (Some n))).
  Proof.
    intros VO G Hn. pose proof (sw_sym _ _ (acc_L _ G)) as HL. assert (S : sem eps (g, 0, f) (read g 0 f) (read g 0 0) (read g f f) (read g f 0)).
    { split; [exact G|]. intros w. repeat split; auto. }
    destruct (sem_range0 eps ord _ _ _ _ _ n VO S eq_refl Hn) as (x' & E & S' & _). eapply sem_computes; [exact E|exact S'|].
    apply sw_alt; [intros w _; reflexivity|]. apply sw_range. exact HL.
  Qed.
  (** and when the initial state of the argument is p + 1, the first word is read from the state p, and there are at most n - 1
      further ones: the copy has its states shifted by one while the initial state is not. *)
  Theorem C27_repetition_range_0_shift_partial ord g p f n : valid_order ord -> good eps (g, S p, f) -> numbered (g, S p, f) -> 2 <= n ->
    computes (repetition_range eps ord (g, S p, f) 0 (Some n)) (lcat (read g p f) (lrange (acc (g, S p, f)) 0 (Some (n - 1)))).
  Proof.
    intros VO G N Hn. destruct (range0_shift eps ord g p f (nf_last g) n VO G (proj1 N) Hn) as (x' & E & G' & HL'). exists x'. split; [exact E|]. split; [exact G'|].
    eapply sw_trans; [exact (acc_L _ G')|]. eapply sw_trans; [exact (sw_iff _ _ HL')|]. apply sw_cat; [intros w _; reflexivity|].
    apply sw_range. exact (sw_sym _ _ (acc_L _ G)).
  Qed.
  (** So it is right exactly when this language is the expected one. *)
  Theorem C27_repetition_range_0_iff_partial ord g p f n : valid_order ord -> good eps (g, S p, f) -> numbered (g, S p, f) -> 2 <= n ->
    (computes (repetition_range eps ord (g, S p, f) 0 (Some n)) (lrange (acc (g, S p, f)) 0 (Some n)) <->
     same_words (lcat (read g p f) (lrange (acc (g, S p, f)) 0 (Some (n - 1)))) (lrange (acc (g, S p, f)) 0 (Some n))).
  Proof.
    intros VO G N Hn. destruct (C27_repetition_range_0_shift_partial ord g p f n VO G N Hn) as (x & E & Gx & HL). split.
    - intros (y & E' & _ & HY). rewrite E in E'. injection E' as <-. eapply sw_trans; [apply sw_sym; exact HL|exact HY].
    - intros X. exists x. split; [exact E|]. split; [exact Gx|]. eapply sw_trans; [exact HL|exact X].
  Qed.
  (** The bounds (0, 0) give an NFA accepting the empty word only, but the initial state returned is that of the argument,
      which is not a state of this NFA unless it is 0. *)
  Theorem C27_repetition_range_00_partial ord g q0 f : valid_order ord -> exists g', repetition_range eps ord (g, q0, f) 0 (Some 0) = Ok (g', q0, 0) /\
    N_vertices g' = [0] /\ same_words (acc (g', q0, 0)) leps.
  Proof.
    intros VO. exists (N_set_final (N_init 1 [] eps) 0 true). split; [|split; [reflexivity|]].
    - cbn [repetition_range repetition rbind Nat.leb Nat.sub range_loop]. assert (E : ord 0 [0] = [0]) by (apply Permutation_length_1_inv, Permutation_sym, VO). rewrite E. reflexivity.
    - eapply sw_trans; [exact (acc_L _ (unit_good eps))|]. intros w _. etransitivity; [exact (unit_runs eps 0 0 w)|]. unfold leps. tauto.
  Qed.
  (** The states of the fragments are numbered in the order of their creation. *)
  Theorem C27_numbered_partial ord : valid_order ord ->
    (forall a, numbered (literal eps a)) /\ (forall chars, numbered (bracket eps chars)) /\
    (forall x1 x2 x, numbered x1 -> concatenation x1 x2 = Ok x -> numbered x) /\
    (forall x1 x2 x, numbered x1 -> alternation x1 x2 = Ok x -> numbered x) /\
    (forall x, numbered x -> numbered (zero_or_one x) /\ numbered (zero_or_more x) /\ numbered (one_or_more x)) /\
    (forall x m n x', good eps x -> numbered x -> (m, n) <> (0, Some 0) -> repetition_range eps ord x m n = Ok x' -> numbered x').
  Proof.
    intros VO. assert (N' : forall x : frag, numbered x -> num' x) by (intros [[g q0] f] N; split; apply N).
    split; [intros a; split; [reflexivity|cbn; lia]|]. split; [exact (num_bracket eps)|]. split; [|split; [|split]].
    - intros [[g q0] f] x2 [[g' q'] f'] (N & Hq & Hf) E. apply num_cat in E; [|exact N|exact Hf]. destruct E as ([N1 F1] & Q1 & L1). cbn [fst snd] in *.
      subst q'. split; [exact N1|]. lia.
    - intros x1 x2 x N. apply num_alt. apply N', N.
    - intros x N. split; [apply num_opt; exact N|]. split; [apply num_star, N', N|apply num_plus, N', N].
    - intros x m n x' G N. apply num_range; assumption.
  Qed.
  Theorem C27_repetition_range_1_partial ord x : repetition_range eps ord x 0 (Some 1) = Ok (zero_or_one x).
  Proof. destruct x as [[g q0] f]. reflexivity. Qed.
  Theorem C27_repetition_range_bounds_partial ord x m n : n < m -> repetition_range eps ord x m (Some n) = Raise AssertionError.
  Proof.
    intros X. destruct x as [[g q0] f]. destruct m as [|m]; [lia|]. cbn [repetition_range].
    assert (E : (S m <=? n) = false) by (apply Nat.leb_gt; exact X). destruct m; rewrite E; reflexivity.
  Qed.
End T.

(** ** Refutations and concrete cases: symbols are numbers, epsilon is 0 *)
Definition get {X} (r : res X) (d : X) : X := match r with Ok x => x | Raise _ => d end.
Definition accb (r : res (nfa nat * nat * nat)) (w : list nat) : option bool :=
  match r with Ok (g, _, _) => N_accepts g w | Raise _ => None end.
Definition la := literal 0 1. Definition lb := literal 0 2.
(** b a* *)
Definition ba := get (concatenation lb (zero_or_more la)) la.
(** a | b *)
Definition a_or_b := get (alternation la lb) la.

Lemma Ok_inj {X} (x y : X) : Ok x = Ok y -> x = y.
Proof. intros E. injection E as E. exact E. Qed.

(** (b a* )? accepts "a". *)
Theorem C26_zero_or_one_refuted : exists x : nfa nat * nat * nat, good 0 x /\ ~ computes 0 (Ok (zero_or_one x)) (lopt (accepted x)).
Proof.
  exists ba. assert (G : good 0 ba).
  { destruct (C25_zero_or_more 0 la) as (y & Ey & Gy & _); [exact (proj1 (literal_ok 0 1 ltac:(discriminate)))|]. apply Ok_inj in Ey. rewrite <- Ey in Gy.
    destruct (C25_concatenation 0 lb (zero_or_more la)) as (x & E & G & _); [exact (proj1 (literal_ok 0 2 ltac:(discriminate)))|exact Gy|].
    unfold ba. rewrite E. exact G. }
  split; [exact G|]. intros (y & E & _ & H). apply Ok_inj in E. rewrite <- E in H. clear y E. assert (X : lopt (accepted ba) [1]).
  { apply H; [cbn; intuition discriminate|]. vm_compute. reflexivity. }
  destruct X as [X|X]; [discriminate|]. vm_compute in X. discriminate.
Qed.

(** (a|b){0,2} rejects "ab". *)
Theorem C27_repetition_range_refuted : exists (x : nfa nat * nat * nat) m n, good 0 x /\ m <= n /\
  ~ computes 0 (repetition_range 0 (fun _ l => l) x m (Some n)) (lrange (accepted x) m (Some n)).
Proof.
  exists a_or_b, 0, 2. assert (G : good 0 a_or_b).
  { destruct (C25_alternation 0 la lb) as (x & E & G & _); [exact (proj1 (literal_ok 0 1 ltac:(discriminate)))|exact (proj1 (literal_ok 0 2 ltac:(discriminate)))|].
    unfold a_or_b. rewrite E. exact G. }
  split; [exact G|]. split; [lia|]. intros (y & E & _ & H).
  assert (X : accepted y [1; 2]).
  { apply H; [cbn; intuition discriminate|]. exists 2. split; [lia|]. split; [lia|]. exists [1], [2]. split; [reflexivity|]. split; [vm_compute; reflexivity|].
    exists [2], []. split; [reflexivity|]. split; [vm_compute; reflexivity|reflexivity]. }
  revert X. assert (E' : accb (repetition_range 0 (fun _ l => l) a_or_b 0 (Some 2)) [1; 2] = Some false) by (vm_compute; reflexivity).
  rewrite E in E'. destruct y as [[g q0] f]. unfold accepted, accb in *. cbn [fst] in *. rewrite E'. discriminate.
Qed.

Definition words := [[]; [1]; [2]; [1; 2]; [2; 1; 1]; [2; 1; 2; 1]].
Example ex_C25 : map (accb (Ok ba)) words = map Some [false; false; true; false; true; false] /\
  map (accb (Ok a_or_b)) words = map Some [false; true; true; false; false; false] /\
  map (accb (Ok (zero_or_more a_or_b))) words = map Some [true; true; true; true; true; true] /\
  map (accb (Ok (one_or_more ba))) words = map Some [false; false; true; false; true; true] /\
  map (accb (repetition 0 ba 2)) words = map Some [false; false; false; false; false; true] /\
  map (accb (Ok (bracket 0 [1; 3]))) words = map Some [false; true; false; false; false; false].
Proof. vm_compute. auto 10. Qed.
(** the hypothesis of C26_zero_or_one_clean_partial holds of a|b, that of C26_zero_or_one_iff_partial fails on ba *)
Example ex_C26 : (let '(g, q0, f) := a_or_b in (forallb (fun e => negb (target e =? q0)) (N_edges g)) && (forallb (fun e => negb (source e =? f)) (N_edges g))) = true /\
  map (accb (Ok (zero_or_one a_or_b))) words = map Some [true; true; true; false; false; false] /\
  map (accb (Ok (zero_or_one ba))) words = map Some [true; true; true; false; true; false].
Proof. vm_compute. auto. Qed.
Example ex_C27 : map (accb (repetition_range 0 (fun _ l => rev l) ba 1 (Some 2))) words = map Some [false; false; true; false; true; true] /\
  map (accb (repetition_range 0 (fun _ l => rev l) ba 2 None)) words = map Some [false; false; false; false; false; true] /\
  map (accb (repetition_range 0 (fun _ l => l) la 0 (Some 3))) [[]; [1]; [1; 1]; [1; 1; 1]; [1; 1; 1; 1]] = map Some [true; true; true; true; false] /\
  map (accb (repetition_range 0 (fun _ l => l) a_or_b 0 (Some 2))) words = map Some [true; true; true; false; false; false].
Proof. vm_compute. auto. Qed.

(** a|b has the initial state 4, so C27_repetition_range_0_shift_partial applies with p = 3, the final state of b: (a|b){0,3} is (a|b){0,2};
    ba has the initial state 0 and loops on its final state: ba{0,2} accepts "a" *)
Example ex_C27_0 : numbered a_or_b /\ snd (fst a_or_b) = 4 /\
  map (accb (repetition_range 0 (fun _ l => l) a_or_b 0 (Some 3))) (words ++ [[1; 1; 2]]) = map Some [true; true; true; true; false; false; false] /\
  map (accb (repetition_range 0 (fun _ l => l) ba 0 (Some 2))) words = map Some [true; true; true; false; true; true] /\
  (let '(g, q0, f) := get (repetition_range 0 (fun _ l => l) a_or_b 0 (Some 0)) la in (N_vertices g, q0, f)) = ([0], 4, 0).
Proof. vm_compute. intuition lia. Qed.

Print Assumptions C25_literal. Print Assumptions C25_bracket. Print Assumptions C25_concatenation. Print Assumptions C25_alternation.
Print Assumptions C25_missing_state.
Print Assumptions C25_zero_or_more. Print Assumptions C25_one_or_more. Print Assumptions C25_repetition.
Print Assumptions C26_zero_or_one_exact_partial. Print Assumptions C26_zero_or_one_iff_partial. Print Assumptions C26_zero_or_one_clean_partial. Print Assumptions C26_zero_or_one_refuted.
Print Assumptions C27_repetition_range_partial. Print Assumptions C27_repetition_range_0_partial. Print Assumptions C27_repetition_range_1_partial.
Print Assumptions C27_repetition_range_0_exact_partial. Print Assumptions C27_repetition_range_0_shift_partial. Print Assumptions C27_repetition_range_0_iff_partial.
Print Assumptions C27_repetition_range_00_partial. Print Assumptions C27_numbered_partial.
Print Assumptions C27_repetition_range_bounds_partial. Print Assumptions C27_repetition_range_refuted.
