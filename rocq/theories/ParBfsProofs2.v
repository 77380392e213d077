(** Consequences of the structure of the calls of parallel_breadth_first_search. *)
From Coq Require Import Sorted.
From Verif Require Import Graph GraphProofs Automaton AutomatonSpec AutomatonProofs Trie PBFS PBFSProofs ParBfs ParBfsSpec ParBfsProofs Base BaseProofs.
#[local] Arguments dkeys : simpl never.

Section P.
  Context {A : Type} {EA : EqDec A}.
  Variables g1 g2 : aut A.
  Variable ip : medge -> medge -> A -> bool.
  Notation step := (step g1 g2).
  Notation on_symbols := (on_symbols g1 g2).
  Notation on_pairs := (on_pairs g1 g2).
  Notation legal := (legal (A:=A) ip).
  Notation examined := (ParBfsSpec.examined (A:=A)).

  Lemma target_of p a : target_pair (edge_of g1 (fst p) a) (edge_of g2 (snd p) a) = step p a.
  Proof. rewrite !edge_of_get. apply target_get. Qed.

  Lemma on_symbols_vertices p l t : on_symbols p l t -> examined t = [] /\ finished t = [] /\ started t = [] /\
    (forall x, In x (discovered t) -> exists a, In a l /\ x = step p a) /\
    (forall a, In a l -> In (step p a) (discovered t) \/ exists u h v, (h = HGray \/ h = HBlack) /\ t = u ++ edges g1 g2 h p a :: v).
  Proof.
    assert (AUX : forall a b t l x t0, (forall a, In a l -> In (step p a) (discovered t) \/ exists u h v, (h = HGray \/ h = HBlack) /\ t = u ++ edges g1 g2 h p a :: v) ->
      (forall y, In y (discovered t) -> In y (discovered (t0 ++ x :: t))) -> In b l -> a = a :> A ->
      In (step p b) (discovered (t0 ++ x :: t)) \/ exists u h v, (h = HGray \/ h = HBlack) /\ t0 ++ x :: t = u ++ edges g1 g2 h p b :: v).
    { intros a b tt0 l0 x t0 H D I _. destruct (H b I) as [J|(u & h & v & J & ->)]; [left; apply D, J|right]. exists (t0 ++ x :: u), h, v. split; [exact J|]. rewrite <- app_assoc. reflexivity. }
    intros OS. induction OS as [|a l t H (X1 & X2 & X3 & X4 & X5)|a l t H (X1 & X2 & X3 & X4 & X5)|a l t H (X1 & X2 & X3 & X4 & X5)].
    - repeat split; intros ? [].
    - split; [exact X1|]. split; [exact X2|]. split; [exact X3|]. split.
      + intros x [<-|I]; [exists a; split; [left|rewrite <- surjective_pairing]; reflexivity|]. destruct (X4 x I) as (b & Ib & Eb). exists b. split; [right|]; assumption.
      + intros b [<-|I]; [left; left; symmetry; apply surjective_pairing|].
        apply (AUX a b t l (Vertex HDiscover (fst (step p a)) First (snd (step p a)) Second) [Symbol (fst p) First (snd p) Second a; edges g1 g2 HEdge p a; edges g1 g2 HTree p a] X5); [|exact I|reflexivity].
        intros y J. right. exact J.
    - split; [exact X1|]. split; [exact X2|]. split; [exact X3|]. split.
      + intros x I. destruct (X4 x I) as (b & Ib & Eb). exists b. split; [right|]; assumption.
      + intros b [<-|I]; [right; exists [Symbol (fst p) First (snd p) Second a; edges g1 g2 HEdge p a], HGray, t; split; [left|]; reflexivity|].
        apply (AUX a b t l (edges g1 g2 HGray p a) [Symbol (fst p) First (snd p) Second a; edges g1 g2 HEdge p a] X5); [|exact I|reflexivity]. intros y J. exact J.
    - split; [exact X1|]. split; [exact X2|]. split; [exact X3|]. split.
      + intros x I. destruct (X4 x I) as (b & Ib & Eb). exists b. split; [right|]; assumption.
      + intros b [<-|I]; [right; exists [Symbol (fst p) First (snd p) Second a; edges g1 g2 HEdge p a], HBlack, t; split; [right|]; reflexivity|].
        apply (AUX a b t l (edges g1 g2 HBlack p a) [Symbol (fst p) First (snd p) Second a; edges g1 g2 HEdge p a] X5); [|exact I|reflexivity]. intros y J. exact J.
  Qed.

  Lemma exam_block p (t1 t2 : list (pevent A)) : examined (Vertex HExamine (fst p) First (snd p) Second :: t1 ++ Vertex HFinish (fst p) Second (snd p) Second :: t2) = p :: examined t1 ++ examined t2.
  Proof. cbn [ParBfsSpec.examined vertices_of flat_map app]. rewrite <- surjective_pairing. f_equal. exact (exam_app t1 (Vertex HFinish (fst p) Second (snd p) Second :: t2)). Qed.
  Lemma fin_block p (t1 t2 : list (pevent A)) : finished (Vertex HExamine (fst p) First (snd p) Second :: t1 ++ Vertex HFinish (fst p) Second (snd p) Second :: t2) = finished t1 ++ p :: finished t2.
  Proof.
    change (finished (A:=A) (Vertex HExamine (fst p) First (snd p) Second :: t1 ++ Vertex HFinish (fst p) Second (snd p) Second :: t2)) with (finished (t1 ++ Vertex HFinish (fst p) Second (snd p) Second :: t2)).
    rewrite fin_app. f_equal. cbn. rewrite <- surjective_pairing. reflexivity.
  Qed.
  Lemma disc_block p (t1 t2 : list (pevent A)) : discovered (A:=A) (Vertex HExamine (fst p) First (snd p) Second :: t1 ++ Vertex HFinish (fst p) Second (snd p) Second :: t2) = discovered t1 ++ discovered t2.
  Proof. change (discovered (A:=A) (Vertex HExamine (fst p) First (snd p) Second :: t1 ++ Vertex HFinish (fst p) Second (snd p) Second :: t2)) with (discovered (t1 ++ Vertex HFinish (fst p) Second (snd p) Second :: t2)). exact (disc_app t1 (Vertex HFinish (fst p) Second (snd p) Second :: t2)). Qed.
  Lemma push_block p (t1 t2 : list (pevent A)) : pushed (A:=A) ip (Vertex HExamine (fst p) First (snd p) Second :: t1 ++ Vertex HFinish (fst p) Second (snd p) Second :: t2) = pushed ip t1 ++ pushed ip t2.
  Proof. change (pushed (A:=A) ip (Vertex HExamine (fst p) First (snd p) Second :: t1 ++ Vertex HFinish (fst p) Second (snd p) Second :: t2)) with (pushed ip (t1 ++ Vertex HFinish (fst p) Second (snd p) Second :: t2)). exact (push_app ip t1 (Vertex HFinish (fst p) Second (snd p) Second :: t2)). Qed.

  Lemma on_pairs_lists l t : on_pairs l t -> examined t = l /\ finished t = l /\ started t = [].
  Proof.
    induction 1 as [|p l ss t t' ND EN OS H (X1 & X2 & X3)]; [auto|]. destruct (on_symbols_vertices _ _ _ OS) as (Y1 & Y2 & Y3 & _).
    rewrite exam_block, fin_block, X1, X2, Y1, Y2. split; [reflexivity|]. split; [reflexivity|].
    change (started (t ++ Vertex HFinish (fst p) Second (snd p) Second :: t') = []). unfold started. rewrite vertices_app. fold (started (A:=A)). rewrite Y3. exact X3.
  Qed.
  Lemma on_pairs_app l1 : forall l2 t, on_pairs (l1 ++ l2) t -> exists t1 t2, t = t1 ++ t2 /\ on_pairs l1 t1 /\ on_pairs l2 t2.
  Proof.
    induction l1 as [|p l1 IH]; intros l2 t H; [exists [], t; repeat split; [constructor|exact H]|].
    inversion H as [|q l ss t0 t' ND EN OS H' E1 E2]; subst. destruct (IH l2 t' H') as (t1 & t2 & -> & H1 & H2).
    exists (Vertex HExamine (fst p) First (snd p) Second :: t0 ++ Vertex HFinish (fst p) Second (snd p) Second :: t1), t2. split; [cbn; rewrite <- app_assoc; reflexivity|]. split; [|exact H2].
    apply on_pair with (syms := ss); assumption.
  Qed.
  Lemma on_pairs_snoc l1 p t : forall t2, on_pairs l1 t -> on_pairs [p] t2 -> on_pairs (l1 ++ [p]) (t ++ t2).
  Proof.
    intros t2 H1 H2. induction H1 as [|q l ss t t' ND EN OS H IH]; [exact H2|]. cbn [app]. rewrite <- app_assoc. cbn [app]. apply on_pair with (syms := ss); assumption.
  Qed.

  Lemma disc_pushed_pairs l u : on_pairs l u -> incl (pushed ip u) (discovered u).
  Proof.
    intros H x. induction H as [|p l ss b u ND EN OS H IH]; [intros []|]. rewrite push_block, disc_block, !in_app_iff. intros [I|I]; [left|right; apply IH, I].
    clear - I OS. induction OS as [|a l u H IH|a l u H IH|a l u H IH]; [destruct I| |exact (IH I)|exact (IH I)].
    change (In x ((if ip (edge_of g1 (fst p) a) (edge_of g2 (snd p) a) a then [target_pair (edge_of g1 (fst p) a) (edge_of g2 (snd p) a)] else []) ++ pushed ip u)) in I.
    apply in_app_iff in I. destruct I as [I|I]; [|right; apply IH, I]. destruct (ip _ _ _); [|destruct I]. destruct I as [<-|[]]. left. rewrite target_of. symmetry. apply surjective_pairing.
  Qed.

  (** ** A run *)
  Variable sources : list qpair.
  Definition starts : list (pevent A) := map (ve HStart) sources.
  Lemma starts_started : started starts = sources.
  Proof. unfold starts. induction sources as [|p l IH]; [reflexivity|]. cbn. rewrite <- surjective_pairing. f_equal. exact IH. Qed.
  Lemma starts_other : examined starts = [] /\ discovered starts = [] /\ finished starts = [] /\ pushed ip starts = [].
  Proof. unfold starts. induction sources as [|p l (I1 & I2 & I3 & I4)]; auto. Qed.

  Variable t' : list (pevent A).
  Let t := starts ++ t'.
  Hypothesis OP : on_pairs (examined t') t'.
  Hypothesis LG : forall t1 x t2, t = t1 ++ x :: t2 -> legal t1 x.
  Hypothesis EX : examined t' = sources ++ pushed ip t'.

  (** splitting the run at an examined pair *)
  Lemma split_run l1 p l2 : examined t' = l1 ++ p :: l2 -> exists t1 ss b t2, t' = t1 ++ Vertex HExamine (fst p) First (snd p) Second :: b ++ Vertex HFinish (fst p) Second (snd p) Second :: t2 /\
    on_pairs l1 t1 /\ on_pairs l2 t2 /\ NoDup ss /\ (forall a, In a ss <-> enabled g1 g2 p a) /\ on_symbols p ss b.
  Proof using OP LG EX.
    intros E. pose proof OP as OP'. rewrite E in OP'. destruct (on_pairs_app _ _ _ OP') as (t1 & t2 & -> & H1 & H2). inversion H2 as [|q l ss t0 u ND EN OS H' E1 E2]; subst.
    exists t1, ss, t0, u. auto 10.
  Qed.

  (** the outcome of a symbol *)
  Lemma outcome l1 p l2 a : examined t' = l1 ++ p :: l2 -> enabled g1 g2 p a -> In (step p a) (discovered t') \/ In (step p a) l1.
  Proof using OP LG EX.
    intros E EN. destruct (split_run _ _ _ E) as (t1 & ss & b & t2 & Et & H1 & H2 & ND & HS & OS). apply HS in EN.
    destruct (on_symbols_vertices _ _ _ OS) as (Y1 & Y2 & Y3 & Y4 & Y5). destruct (on_pairs_lists _ _ H1) as (Z1 & Z2 & Z3).
    destruct (Y5 a EN) as [I|(u & h & v & Hh & Eb)].
    - left. rewrite Et, disc_app, disc_block, !in_app_iff. auto.
    - assert (L : legal (starts ++ t1 ++ Vertex HExamine (fst p) First (snd p) Second :: u) (edges g1 g2 h p a)).
      { apply LG with (t2 := v ++ Vertex HFinish (fst p) Second (snd p) Second :: t2). unfold t. rewrite Et, Eb, <- !app_assoc. cbn [app]; rewrite <- ?app_assoc; reflexivity. }
      assert (D : In (step p a) (discovered (starts ++ t1 ++ Vertex HExamine (fst p) First (snd p) Second :: u)) -> In (step p a) (discovered t')).
      { rewrite !disc_app. rewrite (proj1 (proj2 starts_other)). cbn [app]. rewrite Et, disc_app, disc_block, Eb, disc_app, !in_app_iff. cbn. intros [J|J]; auto. }
      assert (F : In (step p a) (finished (starts ++ t1 ++ Vertex HExamine (fst p) First (snd p) Second :: u)) -> In (step p a) l1).
      { rewrite !fin_app. rewrite (proj1 (proj2 (proj2 starts_other))), Z2. assert (Fu : finished u = []) by (rewrite Eb, fin_app in Y2; apply app_eq_nil in Y2; apply Y2).
        change (finished (A:=A) (Vertex HExamine (fst p) First (snd p) Second :: u)) with (finished u). rewrite Fu, app_nil_r. auto. }
      destruct Hh as [-> | ->]; cbn [legal edges] in L; unfold ParBfsSpec.legal, edges in L; rewrite target_of in L; [left; apply D, L|right; apply F, L].
  Qed.

  (** where a pair is discovered *)
  Lemma discovered_at x : In x (discovered t') -> exists l1 p l2 a, examined t' = l1 ++ p :: l2 /\ enabled g1 g2 p a /\ x = step p a /\ ~ In x l1.
  Proof using OP LG EX.
    intros I. assert (AUX : forall l u w, t' = w ++ u -> on_pairs l u -> on_pairs (examined w) w -> In x (discovered u) -> exists l1 p l2 a, examined t' = l1 ++ p :: l2 /\ enabled g1 g2 p a /\ x = step p a /\ ~ In x l1).
    { clear I. intros l u w Et H. revert w Et. induction H as [|p l ss b u ND EN OS H IH]; intros w Et Hw I; [destruct I|]. rewrite disc_block in I. apply in_app_iff in I.
      destruct (on_symbols_vertices _ _ _ OS) as (Y1 & Y2 & Y3 & Y4 & Y5). destruct I as [I|I].
      - destruct (Y4 x I) as (a & Ia & Ea). exists (examined w), p, (examined u), a. split; [rewrite Et, exam_app, exam_block, Y1; reflexivity|]. split; [apply EN, Ia|]. split; [exact Ea|].
        assert (TR : exists u1 c u2, b = u1 ++ edges g1 g2 HTree p c :: u2 /\ step p c = x).
        { clear - OS I. induction OS as [|c l b H IH|c l b H IH|c l b H IH]; [destruct I| | |].
          - destruct I as [I|I]; [rewrite <- surjective_pairing in I; exists [Symbol (fst p) First (snd p) Second c; edges g1 g2 HEdge p c], c; eexists; split; [reflexivity|exact I]|].
            destruct (IH I) as (u1 & d & u2 & -> & Ed). eexists (_ :: _ :: _ :: _ :: u1), d, u2. split; [reflexivity|exact Ed].
          - destruct (IH I) as (u1 & d & u2 & -> & Ed). eexists (_ :: _ :: _ :: u1), d, u2. split; [reflexivity|exact Ed].
          - destruct (IH I) as (u1 & d & u2 & -> & Ed). eexists (_ :: _ :: _ :: u1), d, u2. split; [reflexivity|exact Ed]. }
        destruct TR as (u1 & c & u2 & Eb & Ec). assert (L : legal (starts ++ w ++ Vertex HExamine (fst p) First (snd p) Second :: u1) (edges g1 g2 HTree p c)).
        { apply LG with (t2 := u2 ++ Vertex HFinish (fst p) Second (snd p) Second :: u). unfold t. rewrite Et, Eb, <- !app_assoc. cbn [app]; rewrite <- ?app_assoc; reflexivity. }
        unfold ParBfsSpec.legal, edges in L. rewrite target_of, Ec in L. intros J. apply (proj2 L). rewrite !fin_app, !in_app_iff. right. left. destruct (on_pairs_lists _ _ Hw) as (_ & W & _). rewrite W. exact J.
      - apply (IH (w ++ Vertex HExamine (fst p) First (snd p) Second :: b ++ Vertex HFinish (fst p) Second (snd p) Second :: [])).
        + rewrite Et, <- !app_assoc. cbn [app]; rewrite <- ?app_assoc; reflexivity.
        + rewrite exam_app, exam_block, Y1. cbn [app ParBfsSpec.examined vertices_of flat_map]. apply on_pairs_snoc; [exact Hw|]. apply on_pair with (syms := ss); try assumption. constructor.
        + exact I. }
    apply (AUX (examined t') t' []); [reflexivity|exact OP|constructor|exact I].
  Qed.

  Lemma first_occurrence (x : qpair) l : In x l -> exists l1 l2, l = l1 ++ x :: l2 /\ ~ In x l1.
  Proof.
    induction l as [|y l IH]; intros I; [destruct I|]. destruct (eqb_spec y x) as [->|N]; [exists [], l; split; auto|].
    destruct I as [->|I]; [congruence|]. destruct (IH I) as (l1 & l2 & -> & NI). exists (y :: l1), l2. split; [reflexivity|]. intros [->|J]; auto.
  Qed.

  (** a pair which is not a source: *)
  Lemma discovered_other x : ~ In x sources -> (In x (discovered t') <-> exists p a, In p (examined t') /\ enabled g1 g2 p a /\ x = step p a).
  Proof using OP LG EX.
    intros NS. split.
    - intros I. destruct (discovered_at x I) as (l1 & p & l2 & a & E & EN & -> & _). exists p, a. rewrite E, in_app_iff. cbn. auto.
    - intros (p & a & I & EN & ->). apply in_split in I. destruct I as (l1 & l2 & E). destruct (outcome _ _ _ a E EN) as [J|J]; [exact J|]. apply (disc_pushed_pairs _ _ OP).
      assert (X : In (step p a) (examined t')) by (rewrite E; apply in_app_iff; auto). rewrite EX in X. apply in_app_iff in X. tauto.
  Qed.

  (** a source: *)
  Lemma discovered_source l1 x l2 : sources = l1 ++ x :: l2 -> ~ In x l1 -> (In x (discovered t') <-> exists p a, In p (l1 ++ [x]) /\ enabled g1 g2 p a /\ x = step p a).
  Proof using OP LG EX.
    intros ES NI. pose proof EX as EX'. rewrite ES, <- app_assoc in EX' . cbn [app] in EX'. split.
    - intros I. destruct (discovered_at x I) as (m1 & p & m2 & a & E & EN & Ex & NM). exists p, a. split; [|auto].
      rewrite EX' in E. clear - E NM. revert l1 E. induction m1 as [|y m1 IH]; intros l1 E.
      + destruct l1 as [|z l1]; cbn in E; injection E as -> E; left; reflexivity.
      + destruct l1 as [|z l1]; cbn in E; injection E as -> E; [exfalso; apply NM; left; reflexivity|]. right. apply IH; [|exact E]. intros J. apply NM. right. exact J.
    - intros (p & a & I & EN & Ex). apply in_app_iff in I. destruct I as [I|[<-|[]]].
      + apply in_split in I. destruct I as (m1 & m2 & ->). rewrite <- app_assoc in EX'. destruct (outcome _ _ _ a EX' EN) as [J|J]; [rewrite Ex; exact J|]. exfalso. apply NI. rewrite Ex. apply in_app_iff. auto.
      + destruct (outcome _ _ _ a EX' EN) as [J|J]; [rewrite Ex; exact J|]. exfalso. apply NI. rewrite Ex. exact J.
  Qed.

  (** ** if_push looks at the target pair only *)
  Variable pp : qpair -> bool.
  Hypothesis IP : forall p a, enabled g1 g2 p a -> ip (edge_of g1 (fst p) a) (edge_of g2 (snd p) a) a = pp (step p a).

  Lemma pushed_symbols p ss b : (forall a, In a ss -> enabled g1 g2 p a) -> on_symbols p ss b -> pushed ip b = filter pp (discovered b).
  Proof using IP.
    intros EN OS. induction OS as [|a l b H IH|a l b H IH|a l b H IH]; try (apply IH; intros c I; apply EN; right; exact I); [reflexivity|].
    change ((if ip (edge_of g1 (fst p) a) (edge_of g2 (snd p) a) a then [target_pair (edge_of g1 (fst p) a) (edge_of g2 (snd p) a)] else []) ++ pushed ip b = filter pp ((fst (step p a), snd (step p a)) :: discovered b)).
    rewrite IP by (apply EN; left; reflexivity). rewrite target_of, IH, <- surjective_pairing by (intros c I; apply EN; right; exact I). cbn [filter]. destruct (pp (step p a)); reflexivity.
  Qed.
  Lemma pushed_pairs l u : on_pairs l u -> pushed ip u = filter pp (discovered u).
  Proof using IP.
    induction 1 as [|p l ss b u ND EN OS H IH]; [reflexivity|]. rewrite push_block, disc_block, filter_app, IH. f_equal. eapply pushed_symbols; [|exact OS]. intros a. apply EN.
  Qed.

  Notation reach := (reach g1 g2 pp sources).
  Record levels (l1 : list qpair) (t1 : list (pevent A)) (E1 E2 : list (qpair * nat)) : Prop := {
    v_done : map fst E1 = l1;
    v_all : map fst (E1 ++ E2) = sources ++ pushed ip t1;
    v_sorted : StronglySorted le (map snd (E1 ++ E2));
    v_close : forall p k E2', E2 = (p, k) :: E2' -> forall e, In e (E1 ++ E2) -> snd e <= S k;
    v_reach : forall p k, In (p, k) (E1 ++ E2) -> reach k p;
    v_next : forall p k a, In (p, k) E1 -> enabled g1 g2 p a -> pp (step p a) = true -> exists m, m <= S k /\ In (step p a, m) (E1 ++ E2);
    v_src : forall s, In s sources -> In (s, 0) (E1 ++ E2)
  }.

  Lemma sorted_app_const (l : list nat) k l' : StronglySorted le l -> (forall x, In x l -> x <= k) -> (forall x, In x l' -> x = k) -> StronglySorted le (l ++ l').
  Proof.
    intros S. induction S as [|x l S IH F]; intros B C; cbn.
    - clear B. induction l' as [|y l' IH]; [constructor|]. constructor; [apply IH; intros; apply C; right; assumption|]. apply Forall_forall. intros z I. rewrite (C y), (C z) by (cbn; auto). lia.
    - constructor; [apply IH; [intros; apply B; right; assumption|exact C]|]. apply Forall_forall. intros z I. apply in_app_iff in I. destruct I as [I|I]; [rewrite Forall_forall in F; apply F, I|]. rewrite (C z I). apply B. left. reflexivity.
  Qed.
  Lemma sorted_mid (l1 : list nat) k l2 : StronglySorted le (l1 ++ k :: l2) -> (forall x, In x l1 -> x <= k) /\ (forall x, In x l2 -> k <= x).
  Proof.
    induction l1 as [|y l1 IH]; cbn; intros S; apply StronglySorted_inv in S; destruct S as [S F].
    - split; [intros ? []|]. intros x I. rewrite Forall_forall in F. apply F, I.
    - destruct (IH S) as [B C]. split; [|exact C]. intros x [<-|I]; [|apply B, I]. rewrite Forall_forall in F. apply F. apply in_app_iff. right. left. reflexivity.
  Qed.

  Lemma levels_step l1 t1 p k E1 E2 ss b : levels l1 t1 E1 ((p, k) :: E2) -> on_pairs l1 t1 -> (forall a, In a ss <-> enabled g1 g2 p a) -> on_symbols p ss b ->
    (forall a, enabled g1 g2 p a -> In (step p a) (discovered b) \/ In (step p a) (discovered t1) \/ In (step p a) l1) ->
    levels (l1 ++ [p]) (t1 ++ Vertex HExamine (fst p) First (snd p) Second :: b ++ [Vertex HFinish (fst p) Second (snd p) Second])
      (E1 ++ [(p, k)]) (E2 ++ map (fun x => (x, S k)) (pushed ip b)).
  Proof using IP.
    intros [V1 V2 V3 V4 V5 V6 V7] H1 HS OS OUT. destruct (on_symbols_vertices _ _ _ OS) as (Y1 & Y2 & Y3 & Y4 & Y5).
    assert (PB : pushed ip b = filter pp (discovered b)) by (eapply pushed_symbols; [|exact OS]; intros a; apply HS).
    assert (PT : pushed ip t1 = filter pp (discovered t1)) by (eapply pushed_pairs; exact H1).
    assert (EE : (E1 ++ [(p, k)]) ++ E2 ++ map (fun x => (x, S k)) (pushed ip b) = (E1 ++ (p, k) :: E2) ++ map (fun x => (x, S k)) (pushed ip b)) by (rewrite <- !app_assoc; reflexivity).
    assert (MK : forall e, In e (E1 ++ (p, k) :: E2) -> snd e <= S k) by (apply (V4 p k E2 eq_refl)).
    assert (MN : forall e, In e (map (fun x : qpair => (x, S k)) (pushed ip b)) -> snd e = S k) by (intros e I; apply in_map_iff in I; destruct I as (x & <- & _); reflexivity).
    rewrite map_app in V3. cbn [map snd] in V3. destruct (sorted_mid _ _ _ V3) as [SB SC].
    constructor; rewrite ?EE.
    - rewrite map_app, V1. reflexivity.
    - rewrite map_app, V2, push_app, push_block, app_nil_r, map_map. cbn [fst]. rewrite map_id, app_assoc. reflexivity.
    - rewrite map_app. apply (sorted_app_const _ (S k)).
      + rewrite map_app. exact V3.
      + intros x I. apply in_map_iff in I. destruct I as (e & <- & I). apply MK, I.
      + intros x I. rewrite map_map in I. apply in_map_iff in I. destruct I as (y & <- & _). reflexivity.
    - intros q m E2' Eq e I. assert (K : k <= m).
      { assert (J : In (q, m) (E2 ++ map (fun x => (x, S k)) (pushed ip b))) by (rewrite Eq; left; reflexivity). apply in_app_iff in J. destruct J as [J|J].
        - apply SC. apply in_map_iff. exists (q, m). auto.
        - apply MN in J. cbn in J. lia. }
      apply in_app_iff in I. destruct I as [I|I]; [apply MK in I; lia|apply MN in I; lia].
    - intros q m I. apply in_app_iff in I. destruct I as [I|I]; [apply V5, I|]. apply in_map_iff in I. destruct I as (x & Ex & I). injection Ex as <- <-.
      rewrite PB in I. apply filter_In in I. destruct I as [I P]. destruct (Y4 x I) as (a & Ia & ->). apply reach_S; [|apply HS, Ia|exact P]. apply V5. apply in_app_iff. right. left. reflexivity.
    - intros q m a I EN P. apply in_app_iff in I. destruct I as [I|[I|[]]].
      + destruct (V6 q m a I EN P) as (j & Lj & Ij). exists j. split; [exact Lj|]. apply in_app_iff. left. exact Ij.
      + injection I as <- <-. destruct (OUT a EN) as [J|[J|J]].
        * exists (S k). split; [apply le_n|]. apply in_app_iff. right. apply in_map_iff. exists (step p a). split; [reflexivity|]. rewrite PB. apply filter_In. auto.
        * assert (X : In (step p a) (map fst (E1 ++ (p, k) :: E2))) by (rewrite V2, in_app_iff, PT, filter_In; auto).
          apply in_map_iff in X. destruct X as ([y j] & Ey & X). cbn in Ey. subst y. exists j. split; [apply (MK _ X)|]. apply in_app_iff. left. exact X.
        * assert (X : In (step p a) (map fst (E1 ++ (p, k) :: E2))) by (rewrite map_app, in_app_iff, V1; auto).
          apply in_map_iff in X. destruct X as ([y j] & Ey & X). cbn in Ey. subst y. exists j. split; [apply (MK _ X)|]. apply in_app_iff. left. exact X.
    - intros s I. apply in_app_iff. left. apply V7, I.
  Qed.

  Lemma levels_run l2 : forall l1 t1 t2 E1 E2, t' = t1 ++ t2 -> on_pairs l1 t1 -> on_pairs l2 t2 -> levels l1 t1 E1 E2 ->
    exists E1, levels (l1 ++ l2) t' E1 [].
  Proof using IP OP LG EX.
    induction l2 as [|p l2 IH]; intros l1 t1 t2 E1 E2 Et H1 H2 V.
    - inversion H2; subst. rewrite app_nil_r in *. destruct (on_pairs_lists _ _ H1) as (X1 & _).
      assert (E2 = []). { pose proof (v_done _ _ _ _ V) as W1. pose proof (v_all _ _ _ _ V) as W2. rewrite <- EX, X1, map_app, W1 in W2. rewrite <- (app_nil_r l1) in W2 at 2. apply app_inv_head in W2. destruct E2; [reflexivity|discriminate]. }
      subst. exists E1. rewrite app_nil_r. exact V.
    - inversion H2 as [|q l ss b u ND EN OS H' E1' E2']; subst q l t2. destruct (on_symbols_vertices _ _ _ OS) as (Y1 & Y2 & Y3 & Y4 & Y5). destruct (on_pairs_lists _ _ H1) as (X1 & X2 & X3).
      assert (HD : exists k E2', E2 = (p, k) :: E2').
      { assert (L : legal (starts ++ t1) (Vertex HExamine (fst p) First (snd p) Second)) by (apply LG with (t2 := b ++ Vertex HFinish (fst p) Second (snd p) Second :: u); unfold t; rewrite Et, <- app_assoc; reflexivity).
        cbn in L. destruct L as (l & L). unfold started in L. rewrite vertices_app, push_app, exam_app in L. fold (started starts) (started t1) in L. destruct starts_other as (-> & _ & _ & O) in L. rewrite O, starts_started, X1, X3, app_nil_r in L. cbn [app] in L.
        rewrite <- (v_all _ _ _ _ V), map_app, (v_done _ _ _ _ V) in L. apply app_inv_head in L. destruct E2 as [|[q k] E2]; [discriminate|]. cbn in L. injection L as -> _. rewrite <- surjective_pairing. eauto. }
      destruct HD as (k & E2' & ->).
      set (t3 := t1 ++ Vertex HExamine (fst p) First (snd p) Second :: b ++ [Vertex HFinish (fst p) Second (snd p) Second]).
      assert (V' : levels (l1 ++ [p]) t3 (E1 ++ [(p, k)]) (E2' ++ map (fun x => (x, S k)) (pushed ip b))).
      { apply levels_step with (ss := ss); try assumption. intros a Ena. apply EN in Ena. destruct (Y5 a Ena) as [I|(u1 & h & u2 & Hh & Eb)]; [auto|].
        assert (L : legal (starts ++ t1 ++ Vertex HExamine (fst p) First (snd p) Second :: u1) (edges g1 g2 h p a)).
        { apply LG with (t2 := u2 ++ Vertex HFinish (fst p) Second (snd p) Second :: u). unfold t. rewrite Et, Eb, <- !app_assoc. cbn [app]; rewrite <- ?app_assoc; reflexivity. }
        unfold ParBfsSpec.legal, edges in L. rewrite target_of in L.
        assert (D : discovered (starts ++ t1 ++ Vertex HExamine (fst p) First (snd p) Second :: u1) = discovered t1 ++ discovered u1) by (rewrite !disc_app; destruct starts_other as (_ & -> & _); reflexivity).
        assert (F : finished (starts ++ t1 ++ Vertex HExamine (fst p) First (snd p) Second :: u1) = l1).
        { rewrite !fin_app. destruct starts_other as (_ & _ & -> & _). rewrite X2. assert (Fu : finished u1 = []) by (rewrite Eb, fin_app in Y2; apply app_eq_nil in Y2; apply Y2).
          change (finished (A:=A) (Vertex HExamine (fst p) First (snd p) Second :: u1)) with (finished u1). rewrite Fu, app_nil_r. reflexivity. }
        rewrite D, F in L. destruct Hh as [-> | ->]; [|auto]. destruct L as [L _]. apply in_app_iff in L. destruct L as [L|L]; [auto|]. left. rewrite Eb, disc_app, in_app_iff. auto. }
      assert (H3 : on_pairs (l1 ++ [p]) t3).
      { unfold t3. apply on_pairs_snoc; [exact H1|]. change [Vertex HFinish (A:=A) (fst p) Second (snd p) Second] with (Vertex HFinish (A:=A) (fst p) Second (snd p) Second :: []). apply on_pair with (syms := ss); try assumption. constructor. }
      assert (Et' : t' = t3 ++ u) by (unfold t3; rewrite Et, <- !app_assoc; cbn [app]; rewrite <- ?app_assoc; reflexivity).
      destruct (IH _ _ _ _ _ Et' H3 H' V') as (E & VE). exists E. rewrite <- app_assoc in VE. exact VE.
  Qed.

  Lemma levels_all : exists E, levels (examined t') t' E [].
  Proof using IP OP LG EX.
    apply (levels_run (examined t') [] [] t' [] (map (fun s => (s, 0)) sources)); [reflexivity|constructor|exact OP|]. constructor; cbn [app].
    - reflexivity.
    - rewrite map_map. cbn [fst]. rewrite map_id. cbn. rewrite app_nil_r. reflexivity.
    - rewrite map_map. cbn [snd]. apply (sorted_app_const [] 0); [constructor|intros ? []|]. intros x I. apply in_map_iff in I. destruct I as (y & <- & _). reflexivity.
    - intros p k E2 _ e I. apply in_map_iff in I. destruct I as (y & <- & _). cbn. lia.
    - intros p k I. apply in_map_iff in I. destruct I as (y & E & I). injection E as <- <-. constructor. exact I.
    - intros p k a [].
    - intros s I. apply in_map_iff. exists s. auto.
  Qed.

  Lemma reach_entry E : levels (examined t') t' E [] -> forall n p, reach n p -> exists m, m <= n /\ In (p, m) E.
  Proof.
    intros V. induction 1 as [s I|n p a R (m & Lm & Im) EN P]; [exists 0; split; [lia|]; pose proof (v_src _ _ _ _ V s I) as X; rewrite app_nil_r in X; exact X|].
    destruct (v_next _ _ _ _ V p m a Im EN P) as (j & Lj & Ij). rewrite app_nil_r in Ij. exists j. split; [lia|exact Ij].
  Qed.

  Lemma examined_reached p : In p (examined t') <-> reached g1 g2 pp sources p.
  Proof using IP OP LG EX.
    destruct levels_all as [E V]. split.
    - intros I. rewrite <- (v_done _ _ _ _ V) in I. apply in_map_iff in I. destruct I as ([q k] & Eq & I). cbn in Eq. subst q. exists k. apply (v_reach _ _ _ _ V). rewrite app_nil_r. exact I.
    - intros [n R]. destruct (reach_entry E V n p R) as (m & _ & I). rewrite <- (v_done _ _ _ _ V). apply in_map_iff. exists (p, m). auto.
  Qed.

  Hypothesis ND : NoDup (discovered t').
  Lemma NoDup_pushed : NoDup (pushed ip t').
  Proof using IP OP ND. rewrite (pushed_pairs _ _ OP). apply NoDup_filter. exact ND. Qed.

  Lemma examined_sorted l1 x l2 y l3 m n : examined t' = l1 ++ x :: l2 ++ y :: l3 -> ~ In y sources ->
    distance g1 g2 pp sources x m -> distance g1 g2 pp sources y n -> m <= n.
  Proof using IP OP LG EX ND.
    intros Ex NS [Rx Mx] [Ry My]. destruct levels_all as [E V]. pose proof (v_done _ _ _ _ V) as VD.
    assert (SP : exists E1 k E2 j E3, E = E1 ++ (x, k) :: E2 ++ (y, j) :: E3 /\ map fst E1 = l1 /\ map fst E2 = l2 /\ map fst E3 = l3).
    { rewrite Ex in VD. apply map_eq_app in VD. destruct VD as (E1 & R & -> & <- & VD). destruct R as [|[x' k] R]; [discriminate|]. cbn in VD. injection VD as -> VD.
      apply map_eq_app in VD. destruct VD as (E2 & R' & -> & <- & VD). destruct R' as [|[y' j] R']; [discriminate|]. cbn in VD. injection VD as -> <-. exists E1, k, E2, j, R'. auto. }
    destruct SP as (E1 & k & E2 & j & E3 & -> & M1 & M2 & M3).
    assert (K : k <= j).
    { pose proof (v_sorted _ _ _ _ V) as S. rewrite app_nil_r, map_app in S. cbn [map snd] in S. apply sorted_mid in S. apply S. rewrite map_app. apply in_app_iff. right. left. reflexivity. }
    assert (Lm : m <= k) by (apply Mx, (v_reach _ _ _ _ V); rewrite app_nil_r; apply in_app_iff; right; left; reflexivity).
    enough (j <= n) by lia. destruct (reach_entry _ V n y Ry) as (i & Li & Ii). enough (i = j) by lia.
    assert (NU : forall l : list qpair, l = sources ++ pushed ip t' -> forall a b c, l = a ++ y :: b ++ y :: c -> False).
    { intros l El a b c Ea. rewrite El in Ea. pose proof NoDup_pushed as NP. clear - Ea NS NP. revert a Ea NS. induction sources as [|s l IH]; intros a Ea NS.
      - cbn in Ea. rewrite Ea in NP. apply NoDup_remove_2 in NP. apply NP. rewrite !in_app_iff. right. right. left. reflexivity.
      - destruct a as [|z a]; cbn in Ea; injection Ea as -> Ea; [apply NS; left; reflexivity|]. apply (IH a Ea). intros I. apply NS. right. exact I. }
    pose proof (v_all _ _ _ _ V) as VA. rewrite app_nil_r in VA.
    assert (UQ : forall e, In e (E1 ++ (x, k) :: E2) \/ In e E3 -> fst e <> y).
    { intros [z e] [I|I] Ez; cbn in Ez; subst z; apply in_split in I; destruct I as (F1 & F2 & EF).
      - assert (W : E1 ++ (x, k) :: E2 ++ (y, j) :: E3 = F1 ++ (y, e) :: F2 ++ (y, j) :: E3).
        { change (E1 ++ (x, k) :: E2 ++ (y, j) :: E3) with (E1 ++ ((x, k) :: E2) ++ (y, j) :: E3). rewrite app_assoc, EF, <- app_assoc. reflexivity. }
        apply (NU _ VA (map fst F1) (map fst F2) (map fst E3)). rewrite W, map_app. cbn [map fst]. rewrite map_app. reflexivity.
      - apply (NU _ VA (map fst (E1 ++ (x, k) :: E2)) (map fst F1) (map fst F2)). rewrite EF.
        change (E1 ++ (x, k) :: E2 ++ (y, j) :: F1 ++ (y, e) :: F2) with (E1 ++ ((x, k) :: E2) ++ (y, j) :: F1 ++ (y, e) :: F2). rewrite app_assoc. generalize (E1 ++ (x, k) :: E2). intros G. rewrite map_app. cbn [map fst]. rewrite map_app. reflexivity. }
    apply in_app_iff in Ii. destruct Ii as [Ii|[Ii|Ii]].
    - exfalso. apply (UQ (y, i)); [left; apply in_app_iff; auto|reflexivity].
    - exfalso. apply (UQ (y, i)); [left; apply in_app_iff; right; left; exact Ii|reflexivity].
    - apply in_app_iff in Ii. destruct Ii as [Ii|[Ii|Ii]]; [|congruence|].
      + exfalso. apply (UQ (y, i)); [left; apply in_app_iff; right; right; exact Ii|reflexivity].
      + exfalso. apply (UQ (y, i)); [right; exact Ii|reflexivity].
  Qed.
End P.
