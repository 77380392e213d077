(** Trie fusion. *)
From Verif Require Import Base BaseProofs Graph GraphProofs Automaton AutomatonSpec AutomatonProofs
  Trie TrieSpec TrieProofs PBFS PBFSProofs PBFSProofs2.
#[local] Arguments dkeys : simpl never.

Lemma whites_dec {K} `{EqDec K} (U : list K) (col : dict K color) p : NoDup U -> In p U -> color_of col p = WHITE ->
  length (filter (fun x => is_white (color_of (dset col p GRAY) x)) U) + 1 <= length (filter (fun x => is_white (color_of col x)) U).
Proof.
  intros ND I W. apply (filter_split_count _ _ [p]).
  - repeat constructor. intros [].
  - exact ND.
  - intros x [<-|[]]. split; [exact I|apply is_white_spec; exact W].
  - intros x _ X. apply is_white_spec in X. rewrite color_of_dset in X. destruct (eqb_spec x p); [discriminate|].
    split; [apply is_white_spec; exact X|]. intros [<-|[]]. contradiction.
Qed.
Lemma whites_black {K} `{EqDec K} (U : list K) (col : dict K color) p c : c <> WHITE ->
  length (filter (fun x => is_white (color_of (dset col p c) x)) U) <= length (filter (fun x => is_white (color_of col x)) U).
Proof.
  intros N. apply filter_length_le. intros x _ X. apply is_white_spec in X. rewrite color_of_dset in X.
  destruct (eqb_spec x p); [congruence|]. apply is_white_spec. exact X.
Qed.
Lemma NoDup_prod {X Y} (l1 : list X) (l2 : list Y) : NoDup l1 -> NoDup l2 -> NoDup (list_prod l1 l2).
Proof.
  intros N1 N2. induction N1 as [|x l NI N1 IH]; cbn; [constructor|]. apply NoDup_app_intro; [|exact IH|].
  - apply NoDup_map_inj_in; [exact N2|]. congruence.
  - intros [y z] I1 I2. apply in_map_iff in I1. destruct I1 as (w & E & _). injection E as <- <-.
    apply in_prod_iff in I2. tauto.
Qed.

Section P.
  Context {A : Type} {EA : EqDec A}.
  Variable g1 g2 : aut A.
  Variable word1 word2 : nat -> list A.
  Hypothesis S1 : shape g1 word1.
  Hypothesis S2 : shape g2 word2.
  Hypothesis F1ok : forall v, A_is_final g1 v = true -> In v (A_vertices g1).
  Hypothesis F2ok : forall v, A_is_final g2 v = true -> In v (A_vertices g2).
  Notation V1 := (A_vertices g1).
  Notation V2 := (A_vertices g2).

  Definition seconds (Q : list qpair) : list nat := flat_map (fun p => match snd p with Some v => [v] | None => [] end) Q.
  Lemma In_seconds Q v : In v (seconds Q) <-> exists o, In (o, Some v) Q.
  Proof.
    unfold seconds. rewrite in_flat_map. split.
    - intros ([o [x|]] & I & X); cbn in X; [|destruct X]. destruct X as [->|[]]. exists o. exact I.
    - intros (o & I). exists (o, Some v). split; [exact I|left; reflexivity].
  Qed.

  Record FI (g : aut A) (word : nat -> list A) (m : dict (option nat) (option nat)) (Q : list qpair) (col : dict qpair color)
      (Pr : list nat) (pend : nat -> A -> Prop) : Prop := {
    f_shape : shape g word;
    f_old : forall v, In v V1 -> In v (A_vertices g) /\ word v = word1 v;
    f_new : forall v, In v (A_vertices g) -> In v V1 \/ has_word g2 word2 (word v);
    f_fin : forall v, A_is_final g v = true -> In v (A_vertices g) /\
      ((In v V1 /\ A_is_final g1 v = true) \/ exists v2, In v2 V2 /\ A_is_final g2 v2 = true /\ word2 v2 = word v);
    f_fin1 : forall v, A_is_final g1 v = true -> A_is_final g v = true;
    f_seen : forall v2, In v2 (Pr ++ seconds Q) -> In v2 V2 /\
      exists v, In v (A_vertices g) /\ word v = word2 v2 /\ (A_is_final g2 v2 = true -> A_is_final g v = true);
    f_parent : forall v2 q a, In v2 (Pr ++ seconds Q) -> A_delta g2 q a = Some v2 -> In q Pr /\ ~ pend q a;
    f_child : forall q a v2, In q Pr -> A_delta g2 q a = Some v2 -> ~ pend q a -> In v2 (Pr ++ seconds Q);
    f_nd : NoDup (Pr ++ seconds Q);
    f_q : forall o1 o2, In (o1, o2) Q ->
      match o1, o2 with
      | Some q1, Some q2 => In q1 V1 /\ word1 q1 = word2 q2
      | None, Some q2 => exists q1, dget m (Some q2) = Some (Some q1) /\ In q1 (A_vertices g) /\ ~ In q1 V1 /\ word q1 = word2 q2
      | Some q1, None => In q1 V1 /\ ~ has_word g2 word2 (word1 q1)
      | None, None => False
      end;
    f_col : forall o r2, color_of col (o, Some r2) <> WHITE -> In r2 (Pr ++ seconds Q);
    f_frame : forall v b, In v (A_vertices g) -> (forall q, In q Pr -> word2 q = word v -> pend q b) ->
      A_delta g v b = A_delta g1 v b;
    f_root : In 0 (Pr ++ seconds Q) }.

  Definition none (q : nat) (a : A) : Prop := False.
  Definition pending (q2 : nat) (rest : list A) (q : nat) (a : A) : Prop := q = q2 /\ In a rest.

  Definition U : list qpair := list_prod (None :: map Some V1) (None :: map Some V2).
  Definition W (col : dict qpair color) : nat := length (filter (fun p => is_white (color_of col p)) U).
  Lemma NDU : NoDup U.
  Proof.
    destruct (sh_rep _ _ S1) as (s1 & R1), (sh_rep _ _ S2) as (s2 & R2).
    apply NoDup_prod; constructor; try (rewrite in_map_iff; intros (x & E & _); discriminate).
    - apply NoDup_map_inj_in; [apply R1|congruence].
    - apply NoDup_map_inj_in; [apply R2|congruence].
  Qed.
  Lemma In_U o1 o2 : (forall v, o1 = Some v -> In v V1) -> (forall v, o2 = Some v -> In v V2) -> In (o1, o2) U.
  Proof.
    intros H1 H2. apply in_prod.
    - destruct o1 as [v|]; [right; apply in_map; auto|left; reflexivity].
    - destruct o2 as [v|]; [right; apply in_map; auto|left; reflexivity].
  Qed.

  Lemma child_word q a v v' : A_delta g2 q a = Some v -> In v' V2 -> word2 v' = word2 q ++ [a] -> v' = v.
  Proof.
    intros D I E. apply (sh_edge _ _ S2) in D. destruct D as (_ & Iv & _ & W'). apply (shape_inj _ _ S2); try assumption. congruence.
  Qed.
  Lemma child_has q a : In q V2 -> has_word g2 word2 (word2 q ++ [a]) -> exists v, A_delta g2 q a = Some v.
  Proof.
    intros Iq (v & Iv & Ev). pose proof (proj2 (shape_path _ _ S2 _ _) (conj Iv Ev)) as P.
    rewrite delta_word_snoc in P. rewrite (proj2 (shape_path _ _ S2 _ _) (conj Iq eq_refl)) in P. exists v. exact P.
  Qed.

  (** the new vertex that mirrors [r2], child of [q2] by [a] *)
  Lemma create_step g word m Q col Pr q2 a rest v2 q1 :
    FI g word m Q col Pr (pending q2 (a :: rest)) -> NoDup (a :: rest) -> In q2 Pr -> In q1 (A_vertices g) -> word q1 = word2 q2 ->
    A_delta g q1 a = None -> A_delta g2 q2 a = Some v2 ->
    exists g' word' m', 
      (let '(ga, r1) := A_add_vertex g in
       match r1 with Raise e => ((ga, m), Raise e) | Ok r1 =>
         match A_add_edge ga q1 r1 a with
         | (gb, Raise e) => ((gb, dset m (Some v2) (Some r1)), Raise e)
         | (gb, Ok _) => ((if A_is_final_opt g2 (Some v2) then A_set_final gb r1 true else gb, dset m (Some v2) (Some r1)), Ok tt)
         end end) = ((g', m'), Ok tt) /\
      FI g' word' m' (Q ++ [(None, Some v2)]) (dset col (None, Some v2) GRAY) Pr (pending q2 rest) /\
      color_of col (None, Some v2) = WHITE /\
      (forall v, In v (A_vertices g) -> In v (A_vertices g') /\ word' v = word v) /\
      (forall b, In b rest -> A_delta g' q1 b = A_delta g q1 b) /\
      (forall o x, dget m o = Some x -> o <> Some v2 -> dget m' o = Some x).
  Proof.
    intros I NDr Iq2 Iq1 Wq D1 D2.
    assert (Iv2 : In v2 V2 /\ word2 v2 = word2 q2 ++ [a]) by (apply (sh_edge _ _ S2) in D2; tauto). destruct Iv2 as [Iv2 Wv2].
    assert (NS : ~ In v2 (Pr ++ seconds Q)).
    { intros X. destruct (f_parent _ _ _ _ _ _ _ I v2 q2 a X D2) as [_ N]. apply N. split; [reflexivity|left; reflexivity]. }
    assert (Wh : forall o, color_of col (o, Some v2) = WHITE).
    { intros o. destruct (color_of col (o, Some v2)) eqn:E; [reflexivity| |]; exfalso; apply NS; apply (f_col _ _ _ _ _ _ _ I o); congruence. }
    destruct (shape_leaf g word q1 a (f_shape _ _ _ _ _ _ _ I) Iq1 D1) as (ga & gb & e & E1 & E2 & V & F & NI & D & L & SH).
    rewrite E1, E2. set (n := au_last g) in *.
    set (word' := fun v => if v =? n then word q1 ++ [a] else word v) in *.
    set (g' := if A_is_final_opt g2 (Some v2) then A_set_final gb n true else gb).
    exists g', word', (dset m (Some v2) (Some n)). split; [reflexivity|].
    assert (Vg : A_vertices g' = A_vertices g ++ [n]) by (unfold g'; destruct (A_is_final_opt g2 (Some v2)); exact V).
    assert (Dg : forall p b, A_delta g' p b = if (p =? q1) && eqb b a then Some n else A_delta g p b).
    { intros p b. rewrite <- D. unfold g'. destruct (A_is_final_opt g2 (Some v2)); reflexivity. }
    assert (Fg : forall v, A_is_final g' v = true <-> A_is_final g v = true \/ (v = n /\ A_is_final g2 v2 = true)).
    { intros v. unfold g'. cbn [A_is_final_opt]. destruct (A_is_final g2 v2); [|rewrite F; intuition congruence].
      unfold A_is_final, A_set_final. cbn [au_final]. pose proof (F v) as Fv. unfold A_is_final in Fv. rewrite Fv.
      destruct (eqb_spec v n); intuition congruence. }
    assert (SH' : shape g' word') by (unfold g'; destruct (A_is_final_opt g2 (Some v2)); [apply shape_set_final|]; exact SH).
    assert (Wo : forall v, In v (A_vertices g) -> word' v = word v).
    { intros v Iv. unfold word'. destruct (Nat.eqb_spec v n) as [->|]; [contradiction|reflexivity]. }
    assert (Wn : word' n = word2 v2) by (unfold word'; rewrite Nat.eqb_refl, Wq, Wv2; reflexivity).
    assert (Vo : forall v, In v (A_vertices g) -> In v (A_vertices g')) by (intros v Iv; rewrite Vg; apply in_app_iff; auto).
    assert (Vn : In n (A_vertices g')) by (rewrite Vg; apply in_app_iff; right; left; reflexivity).
    assert (N1 : ~ In n V1) by (intros X; apply (f_old _ _ _ _ _ _ _ I) in X; tauto).
    assert (Q' : forall x, In x (Pr ++ seconds (Q ++ [(None, Some v2)])) <-> In x (Pr ++ seconds Q) \/ x = v2).
    { intros x. unfold seconds. rewrite flat_map_app, !in_app_iff. cbn. intuition congruence. }
    split; [|split; [apply Wh|split; [auto|split]]].
    - destruct I as [I1 I2 I3 I4 I5 I6 I7 I8 I9 I10 I11 I12 I13]. constructor.
      + exact SH'.
      + intros v Iv. destruct (I2 v Iv) as [X Y]. split; [apply Vo; exact X|]. rewrite Wo by exact X. exact Y.
      + intros v Iv. rewrite Vg in Iv. apply in_app_iff in Iv. destruct Iv as [Iv|[<-|[]]].
        * rewrite Wo by exact Iv. apply I3. exact Iv.
        * right. exists v2. split; [exact Iv2|]. symmetry. exact Wn.
      + intros v Fv. apply Fg in Fv. destruct Fv as [Fv|[-> Fv]].
        * destruct (I4 v Fv) as [X Y]. split; [apply Vo; exact X|]. rewrite Wo by exact X. exact Y.
        * split; [exact Vn|]. right. exists v2. split; [exact Iv2|]. split; [exact Fv|symmetry; exact Wn].
      + intros v Fv. apply Fg. left. apply I5. exact Fv.
      + intros x Ix. apply Q' in Ix. destruct Ix as [Ix| ->].
        * destruct (I6 x Ix) as [X (v & Iv & Wv & Fv)]. split; [exact X|]. exists v. split; [apply Vo; exact Iv|].
          split; [rewrite Wo by exact Iv; exact Wv|]. intros Y. apply Fg. left. apply Fv. exact Y.
        * split; [exact Iv2|]. exists n. split; [exact Vn|]. split; [exact Wn|]. intros Y. apply Fg. auto.
      + intros x q b Ix Dx. apply Q' in Ix. destruct Ix as [Ix| ->].
        * destruct (I7 x q b Ix Dx) as [X Y]. split; [exact X|]. intros [-> Z]. apply Y. split; [reflexivity|right; exact Z].
        * pose proof (sh_edge _ _ S2 _ _ _ Dx) as (Iq & _ & _ & Wx). rewrite Wv2 in Wx. apply app_inj_tail in Wx. destruct Wx as [Wx ->].
          assert (Iq2' : In q2 V2) by (apply (I6 q2); apply in_app_iff; left; exact Iq2).
          assert (q = q2) by (apply (shape_inj _ _ S2); congruence). subst q. split; [exact Iq2|].
          intros [_ Z]. inversion NDr. contradiction.
      + intros q b x Iq Dx Np. apply Q'. destruct (eq_dec b a) as [->|Nb].
        * destruct (Nat.eq_dec q q2) as [->|Nq]; [right; congruence|]. left. eapply I8; [exact Iq|exact Dx|]. intros [X _]. contradiction.
        * left. eapply I8; [exact Iq|exact Dx|]. intros [-> [X|X]]; [congruence|]. apply Np. split; [reflexivity|exact X].
      + unfold seconds. rewrite flat_map_app, app_assoc. apply NoDup_snoc; [exact I9|exact NS].
      + intros o1 o2 Iq. apply in_app_iff in Iq. destruct Iq as [Iq|[X|[]]].
        * specialize (I10 o1 o2 Iq). destruct o1 as [x|], o2 as [y|]; try exact I10.
          destruct I10 as (z & Dz & Iz & Nz & Wz). exists z. rewrite dget_dset. destruct (eqb_spec (Some y) (Some v2)) as [E|].
          -- exfalso. injection E as ->. apply NS. apply in_app_iff. right. apply In_seconds. exists None. exact Iq.
          -- split; [exact Dz|]. split; [apply Vo; exact Iz|]. split; [exact Nz|]. rewrite Wo by exact Iz. exact Wz.
        * injection X as <- <-. exists n. rewrite dget_dset, eqb_refl. auto.
      + intros o r Cr. apply Q'. rewrite color_of_dset in Cr. destruct (eqb_spec (o, Some r) (None, Some v2)) as [E|].
        * injection E as -> ->. auto.
        * left. apply (I11 o). exact Cr.
      + intros v b Iv Hp. rewrite Dg. rewrite Vg in Iv. apply in_app_iff in Iv. destruct Iv as [Iv|[<-|[]]].
        * destruct (Nat.eqb_spec v q1) as [->|Nv], (eqb_spec b a) as [->|Nb]; cbn [andb].
          -- exfalso. destruct (Hp q2 Iq2) as [_ X]; [rewrite Wo by exact Iv; symmetry; exact Wq|]. inversion NDr. contradiction.
          -- apply I12; [exact Iv|]. intros q Iq E. destruct (Hp q Iq) as [X Y]; [rewrite Wo by exact Iv; exact E|]. split; [exact X|right; exact Y].
          -- apply I12; [exact Iv|]. intros q Iq E. destruct (Hp q Iq) as [X Y]; [rewrite Wo by exact Iv; exact E|]. split; [exact X|right; exact Y].
          -- apply I12; [exact Iv|]. intros q Iq E. destruct (Hp q Iq) as [X Y]; [rewrite Wo by exact Iv; exact E|]. split; [exact X|right; exact Y].
        * destruct (Nat.eqb_spec n q1) as [E|Nn]; [subst q1; contradiction|]. cbn [andb].
          assert (X : A_delta g n b = None).
          { destruct (A_delta g n b) eqn:E; [|reflexivity]. apply (sh_edge _ _ I1) in E. tauto. }
          assert (Y : A_delta g1 n b = None).
          { destruct (A_delta g1 n b) eqn:E; [|reflexivity]. apply (sh_edge _ _ S1) in E. tauto. }
          congruence.
      + apply Q'. left. exact I13.
    - intros b Ib. rewrite Dg. destruct (eqb_spec b a) as [->|]; [inversion NDr; contradiction|].
      rewrite andb_false_r. reflexivity.
    - intros o x Dx No. rewrite dget_dset. destruct (eqb_spec o (Some v2)); [contradiction|exact Dx].
  Qed.

  (** existing transition in [g1], mirrored in [g2] *)
  Lemma common_step g word m Q col Pr q2 a rest v2 q1 r1 :
    FI g word m Q col Pr (pending q2 (a :: rest)) -> NoDup (a :: rest) -> In q2 Pr -> In q1 V1 -> word1 q1 = word2 q2 ->
    A_delta g1 q1 a = Some r1 -> A_delta g2 q2 a = Some v2 ->
    let g' := if A_is_final_opt g2 (Some v2) then A_set_final g r1 true else g in
    FI g' word m (Q ++ [(Some r1, Some v2)]) (dset col (Some r1, Some v2) GRAY) Pr (pending q2 rest) /\
      color_of col (Some r1, Some v2) = WHITE /\ In r1 V1 /\ A_vertices g' = A_vertices g /\ (forall p b, A_delta g' p b = A_delta g p b).
  Proof.
    intros I NDr Iq2 Iq1 Wq D1 D2 g'.
    assert (Iv2 : In v2 V2 /\ word2 v2 = word2 q2 ++ [a]) by (apply (sh_edge _ _ S2) in D2; tauto). destruct Iv2 as [Iv2 Wv2].
    assert (Ir1 : In r1 V1 /\ word1 r1 = word1 q1 ++ [a]) by (apply (sh_edge _ _ S1) in D1; tauto). destruct Ir1 as [Ir1 Wr1].
    assert (NS : ~ In v2 (Pr ++ seconds Q)).
    { intros X. destruct (f_parent _ _ _ _ _ _ _ I v2 q2 a X D2) as [_ N]. apply N. split; [reflexivity|left; reflexivity]. }
    assert (Wh : forall o, color_of col (o, Some v2) = WHITE).
    { intros o. destruct (color_of col (o, Some v2)) eqn:E; [reflexivity| |]; exfalso; apply NS; apply (f_col _ _ _ _ _ _ _ I o); congruence. }
    assert (Vg : A_vertices g' = A_vertices g) by (unfold g'; destruct (A_is_final_opt g2 (Some v2)); reflexivity).
    assert (Dg : forall p b, A_delta g' p b = A_delta g p b) by (intros; unfold g'; destruct (A_is_final_opt g2 (Some v2)); reflexivity).
    assert (Fg : forall v, A_is_final g' v = true <-> A_is_final g v = true \/ (v = r1 /\ A_is_final g2 v2 = true)).
    { intros v. unfold g'. cbn [A_is_final_opt]. destruct (A_is_final g2 v2); [|intuition congruence].
      unfold A_is_final, A_set_final. cbn [au_final]. destruct (eqb_spec v r1); intuition congruence. }
    assert (Q' : forall x, In x (Pr ++ seconds (Q ++ [(Some r1, Some v2)])) <-> In x (Pr ++ seconds Q) \/ x = v2).
    { intros x. unfold seconds. rewrite flat_map_app, !in_app_iff. cbn. intuition congruence. }
    split; [|split; [apply Wh|split; [exact Ir1|split; [exact Vg|exact Dg]]]].
    destruct I as [I1 I2 I3 I4 I5 I6 I7 I8 I9 I10 I11 I12 I13]. destruct (I2 r1 Ir1) as [Igr Wgr]. constructor; rewrite ?Vg; try assumption.
    + unfold g'. destruct (A_is_final_opt g2 (Some v2)); [apply shape_set_final|]; exact I1.
    + intros v Fv. apply Fg in Fv. rewrite ?Vg. destruct Fv as [Fv|[-> Fv]]; [apply I4; exact Fv|].
      split; [exact Igr|]. right. exists v2. split; [exact Iv2|]. split; [exact Fv|congruence].
    + intros v Fv. apply Fg. left. apply I5. exact Fv.
    + intros x Ix. apply Q' in Ix. destruct Ix as [Ix| ->].
      * destruct (I6 x Ix) as [X (v & Iv & Wv & Fv)]. split; [exact X|]. exists v. rewrite ?Vg. split; [exact Iv|].
        split; [exact Wv|]. intros Y. apply Fg. left. apply Fv. exact Y.
      * split; [exact Iv2|]. exists r1. rewrite ?Vg. split; [exact Igr|]. split; [congruence|]. intros Y. apply Fg. auto.
    + intros x q b Ix Dx. apply Q' in Ix. destruct Ix as [Ix| ->].
      * destruct (I7 x q b Ix Dx) as [X Y]. split; [exact X|]. intros [-> Z]. apply Y. split; [reflexivity|right; exact Z].
      * pose proof (sh_edge _ _ S2 _ _ _ Dx) as (Iq & _ & _ & Wx). rewrite Wv2 in Wx. apply app_inj_tail in Wx. destruct Wx as [Wx ->].
        assert (Iq2' : In q2 V2) by (apply (I6 q2); apply in_app_iff; left; exact Iq2).
        assert (q = q2) by (apply (shape_inj _ _ S2); congruence). subst q. split; [exact Iq2|].
        intros [_ Z]. inversion NDr. contradiction.
    + intros q b x Iq Dx Np. apply Q'. destruct (eq_dec b a) as [->|Nb].
      * destruct (Nat.eq_dec q q2) as [->|Nq]; [right; congruence|]. left. eapply I8; [exact Iq|exact Dx|]. intros [X _]. contradiction.
      * left. eapply I8; [exact Iq|exact Dx|]. intros [-> [X|X]]; [congruence|]. apply Np. split; [reflexivity|exact X].
    + unfold seconds. rewrite flat_map_app, app_assoc. apply NoDup_snoc; [exact I9|exact NS].
    + intros o1 o2 Iq. apply in_app_iff in Iq. destruct Iq as [Iq|[X|[]]].
      * specialize (I10 o1 o2 Iq). destruct o1 as [x|], o2 as [y|]; try exact I10.
      * injection X as <- <-. split; [exact Ir1|congruence].
    + intros o r Cr. apply Q'. rewrite color_of_dset in Cr. destruct (eqb_spec (o, Some r) (Some r1, Some v2)) as [E|].
      * injection E as -> ->. auto.
      * left. apply (I11 o). exact Cr.
    + intros v b Iv Hp. rewrite ?Vg in Iv. rewrite Dg. apply I12; [exact Iv|]. intros q Iq E. destruct (Hp q Iq E) as [X Y]. split; [exact X|right; exact Y].
    + apply Q'. left. exact I13.
  Qed.

  (** a pending symbol without transition in [g2] *)
  Lemma skip_pend g word m Q Q' col col' Pr q2 a rest :
    FI g word m Q col Pr (pending q2 (a :: rest)) -> A_delta g2 q2 a = None ->
    (forall o1 o2, In (o1, o2) Q' -> In (o1, o2) Q \/ exists q1, o1 = Some q1 /\ o2 = None /\ In q1 V1 /\ ~ has_word g2 word2 (word1 q1)) ->
    seconds Q' = seconds Q -> (forall o r, color_of col' (o, Some r) = color_of col (o, Some r)) ->
    FI g word m Q' col' Pr (pending q2 rest).
  Proof.
    intros I D2 HQ HS HC. destruct I as [I1 I2 I3 I4 I5 I6 I7 I8 I9 I10 I11 I12 I13]. constructor; rewrite ?HS; try assumption.
    - intros x q b Ix Dx. destruct (I7 x q b Ix Dx) as [X Y]. split; [exact X|]. intros [-> Z]. apply Y. split; [reflexivity|right; exact Z].
    - intros q b x Iq Dx Np. eapply I8; [exact Iq|exact Dx|]. intros [-> [X|X]]; [congruence|]. apply Np. split; [reflexivity|exact X].
    - intros o1 o2 Iq. apply HQ in Iq. destruct Iq as [Iq|(q1 & -> & -> & X)]; [apply I10; exact Iq|exact X].
    - intros o r X. rewrite HC in X. apply (I11 o). exact X.
    - intros v b Iv Hp. apply I12; [exact Iv|]. intros q Iq E. destruct (Hp q Iq E) as [X Y]. split; [exact X|right; exact Y].
  Qed.

  Notation sym := (symbols fst g2 (fusion_edge g2) no_vertex fusion_push).

  (** the loop on symbols of a pair (q1, q2) *)
  Lemma sym_both q1 q2 rest : forall g word m Q col Pr, FI g word m Q col Pr (pending q2 rest) -> NoDup rest -> In q2 Pr ->
    In q1 V1 -> word1 q1 = word2 q2 -> (forall a, In a rest -> A_delta g q1 a = A_delta g1 q1 a) ->
    (forall a, In a rest -> A_delta g1 q1 a <> None \/ A_delta g2 q2 a <> None) ->
    exists g' word' m' Q' col', sym (Some q1) (Some q2) rest (g, m) Q col = ((g', m'), Q', col', Ok tt) /\
      FI g' word' m' Q' col' Pr none /\ length Q' + W col' <= length Q + W col.
  Proof.
    induction rest as [|a rest IH]; intros g word m Q col Pr I ND Iq2 Iq1 Wq HD HL.
    - exists g, word, m, Q, col. split; [reflexivity|]. split; [|lia].
      destruct I as [I1 I2 I3 I4 I5 I6 I7 I8 I9 I10 I11 I12 I13]. constructor; try assumption.
      + intros x q b Ix Dx. destruct (I7 x q b Ix Dx) as [X _]. split; [exact X|intros []].
      + intros q b x Iq Dx _. eapply I8; [exact Iq|exact Dx|]. intros [_ []].
      + intros v b Iv Hp. apply I12; [exact Iv|]. intros q Iq E. destruct (Hp q Iq E).
    - inversion ND as [|? ? Na NDr]; subst. cbn [symbols odelta get_edge fst snd]. 
      rewrite (HD a (or_introl eq_refl)).
      assert (Iq2' : In q2 V2) by (apply (f_seen _ _ _ _ _ _ _ I q2); apply in_app_iff; left; exact Iq2).
      assert (Igq : In q1 (A_vertices g) /\ word q1 = word1 q1) by (apply (f_old _ _ _ _ _ _ _ I); exact Iq1). destruct Igq as [Igq Wgq].
      destruct (A_delta g1 q1 a) as [r1|] eqn:D1.
      + destruct (A_delta g2 q2 a) as [v2|] eqn:D2.
        * destruct (common_step g word m Q col Pr q2 a rest v2 q1 r1 I ND Iq2 Iq1 Wq D1 D2) as (I' & Wh & Ir1 & Vg & Dg).
          cbn [fusion_edge]. rewrite Wh. cbn [is_white no_vertex fusion_push].
          destruct (IH _ _ _ _ _ _ I' NDr Iq2 Iq1 Wq) as (g' & word' & m' & Q' & col' & E & I'' & L).
          { intros b Ib. rewrite Dg. apply HD. right. exact Ib. }
          { intros b Ib. apply HL. right. exact Ib. }
          exists g', word', m', Q', col'. split; [exact E|]. split; [exact I''|].
          rewrite app_length in L. cbn [length] in L.
          assert (X : W (dset col (Some r1, Some v2) GRAY) + 1 <= W col).
          { apply whites_dec; [apply NDU| |exact Wh]. apply In_U; intros v E'; injection E' as <-; [exact Ir1|]. apply (sh_edge _ _ S2) in D2. tauto. }
          lia.
        * cbn [fusion_edge A_is_final_opt]. cbn [fusion_push no_vertex].
          assert (Ir1 : In r1 V1 /\ word1 r1 = word1 q1 ++ [a]) by (apply (sh_edge _ _ S1) in D1; tauto). destruct Ir1 as [Ir1 Wr1].
          destruct (is_white (color_of col (Some r1, None))) eqn:Wh.
          -- apply is_white_spec in Wh.
             destruct (IH g word m (Q ++ [(Some r1, None)]) (dset col (Some r1, None) GRAY) Pr) as (g' & word' & m' & Q' & col' & E & I'' & L); try assumption.
             ++ eapply skip_pend; [exact I|exact D2| | |].
                ** intros o1 o2 X. apply in_app_iff in X. destruct X as [X|[X|[]]]; [auto|]. injection X as <- <-. right. exists r1.
                   repeat split; auto. intros X. rewrite Wr1, Wq in X. apply child_has in X; [|exact Iq2']. destruct X as (v & X). congruence.
                ** unfold seconds. rewrite flat_map_app. cbn. apply app_nil_r.
                ** intros o r. rewrite color_of_dset. destruct (eqb_spec (o, Some r) (Some r1, None)) as [X|]; [discriminate|reflexivity].
             ++ intros b Ib. apply HD. right. exact Ib.
             ++ intros b Ib. apply HL. right. exact Ib.
             ++ exists g', word', m', Q', col'. split; [exact E|]. split; [exact I''|].
                rewrite app_length in L. cbn [length] in L.
                assert (X : W (dset col (Some r1, None) GRAY) + 1 <= W col).
                { apply whites_dec; [apply NDU| |exact Wh]. apply In_U; intros v E'; [injection E' as <-; exact Ir1|discriminate]. }
                lia.
          -- destruct (IH g word m Q col Pr) as (g' & word' & m' & Q' & col' & E & I'' & L); try assumption.
             ++ eapply skip_pend; [exact I|exact D2|auto|reflexivity|reflexivity].
             ++ intros b Ib. apply HD. right. exact Ib.
             ++ intros b Ib. apply HL. right. exact Ib.
             ++ exists g', word', m', Q', col'. auto.
      + destruct (A_delta g2 q2 a) as [v2|] eqn:D2; [|exfalso; destruct (HL a (or_introl eq_refl)); congruence].
        assert (Wq' : word q1 = word2 q2) by congruence.
        assert (Dq : A_delta g q1 a = None) by (rewrite (HD a (or_introl eq_refl)); exact D1).
        destruct (create_step g word m Q col Pr q2 a rest v2 q1 I ND Iq2 Igq Wq' Dq D2) as (g' & word' & m' & E & I' & Wh & Old & Rest & Mp).
        assert (EE : fusion_edge g2 (g, m) (Some (q1, None)) (Some (q2, Some v2)) a = ((g', m'), Ok tt)).
        { rewrite <- E. cbn [fusion_edge]. destruct (A_add_vertex g) as [ga [r1|x]]; reflexivity. }
        rewrite EE, Wh. cbn [is_white no_vertex fusion_push].
        destruct (IH _ _ _ _ _ _ I' NDr Iq2 Iq1 Wq) as (g'' & word'' & m'' & Q'' & col'' & E'' & I'' & L).
        { intros b Ib. rewrite Rest by exact Ib. apply HD. right. exact Ib. }
        { intros b Ib. apply HL. right. exact Ib. }
        exists g'', word'', m'', Q'', col''. split; [exact E''|]. split; [exact I''|].
        rewrite app_length in L. cbn [length] in L.
        assert (X : W (dset col (None, Some v2) GRAY) + 1 <= W col).
        { apply whites_dec; [apply NDU| |exact Wh]. apply In_U; intros v E'; [discriminate|injection E' as <-]. apply (sh_edge _ _ S2) in D2. tauto. }
        lia.
  Qed.

  (** the loop on symbols of a pair (BOTTOM, q2) *)
  Lemma sym_new q1 q2 rest : forall g word m Q col Pr, FI g word m Q col Pr (pending q2 rest) -> NoDup rest -> In q2 Pr ->
    dget m (Some q2) = Some (Some q1) -> In q1 (A_vertices g) -> word q1 = word2 q2 -> (forall a, In a rest -> A_delta g q1 a = None) ->
    (forall a, In a rest -> A_delta g2 q2 a <> None) ->
    exists g' word' m' Q' col', sym None (Some q2) rest (g, m) Q col = ((g', m'), Q', col', Ok tt) /\
      FI g' word' m' Q' col' Pr none /\ length Q' + W col' <= length Q + W col.
  Proof.
    induction rest as [|a rest IH]; intros g word m Q col Pr I ND Iq2 Dm Iq1 Wq HD HL.
    - exists g, word, m, Q, col. split; [reflexivity|]. split; [|lia].
      destruct I as [I1 I2 I3 I4 I5 I6 I7 I8 I9 I10 I11 I12 I13]. constructor; try assumption.
      + intros x q b Ix Dx. destruct (I7 x q b Ix Dx) as [X _]. split; [exact X|intros []].
      + intros q b x Iq Dx _. eapply I8; [exact Iq|exact Dx|]. intros [_ []].
      + intros v b Iv Hp. apply I12; [exact Iv|]. intros q Iq E. destruct (Hp q Iq E).
    - inversion ND as [|? ? Na NDr]; subst. cbn [symbols odelta get_edge fst snd].
      destruct (A_delta g2 q2 a) as [v2|] eqn:D2; [|exfalso; apply (HL a (or_introl eq_refl)); exact D2].
      destruct (create_step g word m Q col Pr q2 a rest v2 q1 I ND Iq2 Iq1 Wq (HD a (or_introl eq_refl)) D2) as (g' & word' & m' & E & I' & Wh & Old & Rest & Mp).
      assert (EE : fusion_edge g2 (g, m) None (Some (q2, Some v2)) a = ((g', m'), Ok tt)).
      { rewrite <- E. cbn [fusion_edge]. rewrite Dm. destruct (A_add_vertex g) as [ga [r1|x]]; reflexivity. }
      rewrite EE, Wh. cbn [is_white no_vertex fusion_push].
      assert (Nv : Some q2 <> Some v2).
      { intros X. injection X as ->. apply (sh_edge _ _ S2) in D2. destruct D2 as (_ & _ & _ & X). apply (f_equal (@length A)) in X.
        rewrite app_length in X. cbn in X. lia. }
      destruct (Old q1 Iq1) as [Iq1' Wq1'].
      destruct (IH _ _ _ _ _ _ I' NDr Iq2 (Mp _ _ Dm Nv) Iq1') as (g'' & word'' & m'' & Q'' & col'' & E'' & I'' & L).
      { congruence. }
      { intros b Ib. rewrite Rest by exact Ib. apply HD. right. exact Ib. }
      { intros b Ib. apply HL. right. exact Ib. }
      exists g'', word'', m'', Q'', col''. split; [exact E''|]. split; [exact I''|].
      rewrite app_length in L. cbn [length] in L.
      assert (X : W (dset col (None, Some v2) GRAY) + 1 <= W col).
      { apply whites_dec; [apply NDU| |exact Wh]. apply In_U; intros v E'; [discriminate|injection E' as <-]. apply (sh_edge _ _ S2) in D2. tauto. }
      lia.
  Qed.

  (** the loop on symbols of a pair (q1, BOTTOM) *)
  Lemma sym_only1 q1 rest g m : (forall a, In a rest -> exists r1, A_delta g q1 a = Some r1) -> forall Q col,
    exists col', sym (Some q1) None rest (g, m) Q col = ((g, m), Q, col', Ok tt) /\
      (forall o r, color_of col' (o, Some r) = color_of col (o, Some r)) /\ W col' <= W col.
  Proof.
    induction rest as [|a rest IH]; intros HD Q col.
    - exists col. repeat split; auto.
    - cbn [symbols odelta get_edge fst snd]. destruct (HD a (or_introl eq_refl)) as (r1 & ->). cbn [fusion_edge A_is_final_opt fusion_push no_vertex].
      assert (HD' : forall a, In a rest -> exists r1, A_delta g q1 a = Some r1) by (intros; apply HD; right; assumption).
      destruct (is_white (color_of col (Some r1, None))) eqn:Wh.
      + destruct (IH HD' Q (dset col (Some r1, None) GRAY)) as (col' & E & C & L). exists col'. split; [exact E|]. split.
        * intros o r. rewrite C, color_of_dset. destruct (eqb_spec (o, Some r) (Some r1, None)) as [X|]; [discriminate|reflexivity].
        * etransitivity; [exact L|]. apply whites_black. discriminate.
      + apply IH. exact HD'.
  Qed.

  Variable ord : set_order A.
  Hypothesis OV : valid_order ord.

  Lemma fusion_loop fuel : forall n g word m Q col Pr, FI g word m Q col Pr none -> length Q + W col < fuel ->
    exists g' word' m' Pr' col', pbfs_loop fst g2 ord (fusion_edge g2) no_vertex fusion_push fuel n (g, m) Q col = Some ((g', m'), Ok tt) /\
      FI g' word' m' [] col' Pr' none.
  Proof.
    induction fuel as [|fuel IH]; intros n g word m Q col Pr I L; [lia|]. cbn [pbfs_loop].
    destruct Q as [|[o1 o2] Q].
    - exists g, word, m, Pr, col. auto.
    - cbn [fst].
      assert (IS : forall l a, In a (ord n l) <-> In a l) by (intros l a; split; apply Permutation_in; [|symmetry]; apply OV).
      assert (NS : forall l, NoDup l -> NoDup (ord n l)) by (intros l; apply Permutation_NoDup; symmetry; apply OV).
      pose proof (f_q _ _ _ _ _ _ _ I o1 o2 (or_introl eq_refl)) as FQ.
      (* removing the popped pair *)
      assert (Pop : forall q2, o2 = Some q2 -> forall rest, (forall a, A_delta g2 q2 a <> None -> In a rest) ->
        FI g word m Q col (q2 :: Pr) (pending q2 rest)).
      { intros q2 -> rest HR. destruct I as [I1 I2 I3 I4 I5 I6 I7 I8 I9 I10 I11 I12 I13].
        assert (SP : forall x, In x ((q2 :: Pr) ++ seconds Q) <-> In x (Pr ++ seconds ((o1, Some q2) :: Q))).
        { intros x. cbn. rewrite !in_app_iff. cbn. tauto. }
        constructor; try assumption.
        - intros x Ix. apply SP in Ix. apply I6. exact Ix.
        - intros x q a Ix Dx. apply SP in Ix. destruct (I7 x q a Ix Dx) as [X _]. split; [right; exact X|].
          intros [-> _]. change (seconds ((o1, Some q2) :: Q)) with (q2 :: seconds Q) in I9. apply NoDup_remove_2 in I9.
          apply I9. apply in_app_iff. left. exact X.
        - intros q a x Iq Dx Np. apply SP. destruct Iq as [<-|Iq]; [exfalso; apply Np; split; [reflexivity|apply HR; congruence]|].
          eapply I8; [exact Iq|exact Dx|intros []].
        - change (seconds ((o1, Some q2) :: Q)) with (q2 :: seconds Q) in I9. cbn. constructor; [apply NoDup_remove_2; exact I9|].
          eapply NoDup_remove_1. exact I9.
        - intros x y Ix. apply I10. right. exact Ix.
        - intros o r Cr. apply SP. apply (I11 o). exact Cr.
        - intros v b Iv Hp. apply I12; [exact Iv|]. intros q Iq E. exfalso. destruct (Hp q (or_intror Iq) E) as [-> _].
          change (seconds ((o1, Some q2) :: Q)) with (q2 :: seconds Q) in I9. apply NoDup_remove_2 in I9. apply I9. apply in_app_iff. left. exact Iq.
        - apply SP. exact I13. }
      assert (Blk : forall g' word' m' Q' col' Pr', FI g' word' m' Q' col' Pr' none -> (forall q2, o2 = Some q2 -> In q2 Pr') ->
        FI g' word' m' Q' (dset col' (o1, o2) BLACK) Pr' none).
      { intros g' word' m' Q' col' Pr' I' HP. destruct I' as [I1 I2 I3 I4 I5 I6 I7 I8 I9 I10 I11 I12 I13]. constructor; try assumption.
        intros o r Cr. rewrite color_of_dset in Cr. destruct (eqb_spec (o, Some r) (o1, o2)) as [X|]; [|apply (I11 o); exact Cr].
        injection X as -> X. apply in_app_iff. left. apply HP. symmetry. exact X. }
      assert (Fin : forall g' word' m' Q' col' Pr', FI g' word' m' Q' col' Pr' none -> (forall q2, o2 = Some q2 -> In q2 Pr') ->
        length Q' + W col' <= length Q + W col ->
        exists g'' word'' m'' Pr'' col'', pbfs_loop fst g2 ord (fusion_edge g2) no_vertex fusion_push fuel (S n) (g', m') Q' (dset col' (o1, o2) BLACK) =
          Some ((g'', m''), Ok tt) /\ FI g'' word'' m'' [] col'' Pr'' none).
      { intros g' word' m' Q' col' Pr' I' HP L'. eapply IH; [apply Blk; eassumption|].
        assert (X : W (dset col' (o1, o2) BLACK) <= W col') by (apply whites_black; discriminate). cbn [length] in L. lia. }
      assert (NDs : NoDup (sunion (A_sigma g o1) (A_sigma g2 o2))).
      { apply NoDup_sunion. unfold A_sigma. destruct o1 as [q1|]; [|constructor]. destruct (dget (au_adj g) q1); [apply NoDup_sof|constructor]. }
      destruct o2 as [q2|].
      + set (rest := ord n (sunion (A_sigma g o1) (A_sigma g2 (Some q2)))).
        assert (HR : forall a, A_delta g2 q2 a <> None -> In a rest).
        { intros a X. apply IS, In_sunion. right. apply In_sigma. exact X. }
        pose proof (Pop q2 eq_refl rest HR) as I'.
        destruct o1 as [q1|].
        * destruct FQ as [Iq1 Wq].
          assert (DD : forall a, A_delta g q1 a = A_delta g1 q1 a).
          { intros a. apply (f_frame _ _ _ _ _ _ _ I); [apply (f_old _ _ _ _ _ _ _ I); exact Iq1|].
            intros q Iq E. exfalso. destruct (f_old _ _ _ _ _ _ _ I q1 Iq1) as [_ W1].
            assert (q = q2).
            { apply (shape_inj _ _ S2); [apply (f_seen _ _ _ _ _ _ _ I q); apply in_app_iff; left; exact Iq
              |apply (f_seen _ _ _ _ _ _ _ I q2); apply in_app_iff; right; left; reflexivity|congruence]. }
            subst q. pose proof (f_nd _ _ _ _ _ _ _ I) as ND. change (seconds ((Some q1, Some q2) :: Q)) with (q2 :: seconds Q) in ND.
            apply NoDup_remove_2 in ND. apply ND. apply in_app_iff. left. exact Iq. }
          destruct (sym_both q1 q2 rest g word m Q col (q2 :: Pr) I' (NS _ NDs) (or_introl eq_refl) Iq1 Wq) as (g' & word' & m' & Q' & col' & E & I'' & L').
          -- intros a _. apply DD.
          -- intros a Ia. apply IS, In_sunion in Ia. rewrite !In_sigma in Ia. cbn [odelta] in Ia. rewrite DD in Ia. exact Ia.
          -- rewrite E. eapply Fin; [exact I''| |exact L']. intros x X. injection X as <-. left. reflexivity.
        * destruct FQ as (q1 & Dm & Iq1 & N1 & Wq).
          destruct (sym_new q1 q2 rest g word m Q col (q2 :: Pr) I' (NS _ NDs) (or_introl eq_refl) Dm Iq1 Wq) as (g' & word' & m' & Q' & col' & E & I'' & L').
          -- intros a _. rewrite (f_frame _ _ _ _ _ _ _ I q1 a Iq1).
             ++ destruct (A_delta g1 q1 a) eqn:D; [|reflexivity]. apply (sh_edge _ _ S1) in D. tauto.
             ++ intros q Iq E. exfalso. assert (q = q2).
                { apply (shape_inj _ _ S2); [apply (f_seen _ _ _ _ _ _ _ I q); apply in_app_iff; left; exact Iq
                  |apply (f_seen _ _ _ _ _ _ _ I q2); apply in_app_iff; right; left; reflexivity|congruence]. }
                subst q. pose proof (f_nd _ _ _ _ _ _ _ I) as ND. change (seconds ((None, Some q2) :: Q)) with (q2 :: seconds Q) in ND.
                apply NoDup_remove_2 in ND. apply ND. apply in_app_iff. left. exact Iq.
          -- intros a Ia. apply IS, In_sunion in Ia. rewrite !In_sigma in Ia. cbn [odelta] in Ia. destruct Ia as [X|X]; [congruence|exact X].
          -- rewrite E. eapply Fin; [exact I''| |exact L']. intros x X. injection X as <-. left. reflexivity.
      + destruct o1 as [q1|]; [|destruct FQ]. destruct FQ as [Iq1 NW].
        destruct (sym_only1 q1 (ord n (sunion (A_sigma g (Some q1)) (A_sigma g2 None))) g m) with (Q := Q) (col := col) as (col' & E & C & LW).
        { intros a Ia. apply IS, In_sunion in Ia. rewrite !In_sigma in Ia. cbn [odelta] in Ia.
          destruct (A_delta g q1 a) as [r|]; [exists r; reflexivity|]. destruct Ia; congruence. }
        rewrite E. eapply (Fin g word m Q col' Pr); [|discriminate|lia].
        destruct I as [I1 I2 I3 I4 I5 I6 I7 I8 I9 I10 I11 I12 I13]. constructor; try assumption.
        * intros x y Ix. apply I10. right. exact Ix.
        * intros o r Cr. rewrite C in Cr. apply (I11 o) in Cr. exact Cr.
  Qed.

  Definition fusion_fuel : nat := (length V1 + 1) * (length V2 + 1) + 2.

  Lemma fusion_run fuel : fusion_fuel <= fuel -> exists g' word', T_fusion g2 ord fuel g1 = Some (g', Ok tt) /\ shape g' word' /\
    (forall v, A_is_final g' v = true -> In v (A_vertices g')) /\
    (forall u, A_accepts g' u = true <-> A_accepts g1 u = true \/ A_accepts g2 u = true) /\
    (forall v, In v V1 -> In v (A_vertices g') /\ word' v = word1 v) /\
    (forall x, has_word g' word' x <-> has_word g1 word1 x \/ has_word g2 word2 x).
  Proof.
    intros L. unfold T_fusion, pbfs, fusion_start. cbn [fst]. rewrite (sh_q0 _ _ S1), (sh_q0 _ _ S2). cbn [A_is_final_opt].
    set (g := if A_is_final g2 0 then A_set_final g1 0 true else g1).
    assert (Vg : A_vertices g = V1) by (unfold g; destruct (A_is_final g2 0); reflexivity).
    assert (Fg : forall v, A_is_final g v = true <-> A_is_final g1 v = true \/ (v = 0 /\ A_is_final g2 0 = true)).
    { intros v. unfold g. destruct (A_is_final g2 0); [|intuition congruence].
      unfold A_is_final, A_set_final. cbn [au_final]. destruct (eqb_spec v 0); intuition congruence. }
    destruct (fusion_loop fuel 0 g word1 (dset [] (Some 0) (Some 0)) [(Some 0, Some 0)] [] []) as (g' & word' & m' & Pr & col & E & I).
    - constructor; rewrite ?Vg.
      + unfold g. destruct (A_is_final g2 0); [apply shape_set_final|]; exact S1.
      + auto.
      + auto.
      + intros v Fv. apply Fg in Fv. destruct Fv as [Fv|[-> Fv]].
        * rewrite ?Vg. split; [apply F1ok; exact Fv|]. left. split; [apply F1ok; exact Fv|exact Fv].
        * rewrite ?Vg. split; [apply S1|]. right. exists 0. split; [apply S2|]. split; [exact Fv|]. rewrite (sh_word0 _ _ S1), (sh_word0 _ _ S2). reflexivity.
      + intros v Fv. apply Fg. auto.
      + cbn. intros v [<-|[]]. split; [apply S2|]. exists 0. rewrite ?Vg. split; [apply S1|].
        split; [rewrite (sh_word0 _ _ S1), (sh_word0 _ _ S2); reflexivity|]. intros X. apply Fg. auto.
      + cbn. intros v q a [<-|[]] D. apply (sh_edge _ _ S2) in D. tauto.
      + intros q a v [].
      + cbn. repeat constructor. intros [].
      + intros o1 o2 [X|[]]. injection X as <- <-. split; [apply S1|]. rewrite (sh_word0 _ _ S1), (sh_word0 _ _ S2). reflexivity.
      + intros o r X. exfalso. apply X. reflexivity.
      + intros v b _ _. unfold g. destruct (A_is_final g2 0); reflexivity.
      + left. reflexivity.
    - assert (X : W [] <= length U) by (unfold W; clear; induction U as [|x l IHl]; cbn in *; lia).
      assert (Y : length U = (length V1 + 1) * (length V2 + 1)).
      { unfold U. rewrite prod_length. cbn [length]. rewrite !map_length. f_equal; lia. }
      unfold fusion_fuel in L. cbn [length]. lia.
    - rewrite E. exists g', word'. split; [reflexivity|]. split; [apply (f_shape _ _ _ _ _ _ _ I)|]. 
      split; [intros v Fv; apply (f_fin _ _ _ _ _ _ _ I); exact Fv|].
      assert (All : forall n v2, length (word2 v2) = n -> In v2 V2 -> In v2 Pr).
      { induction n as [n IHn] using lt_wf_ind. intros v2 Ln Iv2. destruct (Nat.eq_dec v2 0) as [->|N0].
        - pose proof (f_root _ _ _ _ _ _ _ I) as X. rewrite app_nil_r in X. exact X.
        - destruct (sh_in _ _ S2 v2 Iv2 N0) as (q & a & D). pose proof (sh_edge _ _ S2 _ _ _ D) as (Iq & _ & _ & Wv).
          assert (Iqp : In q Pr) by (apply (IHn (length (word2 q))); [rewrite <- Ln, Wv, app_length; cbn; lia|reflexivity|exact Iq]).
          pose proof (f_child _ _ _ _ _ _ _ I q a v2 Iqp D (fun X => X)) as X. rewrite app_nil_r in X. exact X. }
      split; [intros u; rewrite (shape_accepts _ _ (f_shape _ _ _ _ _ _ _ I)), (shape_accepts _ _ S1), (shape_accepts _ _ S2); split|split; [apply (f_old _ _ _ _ _ _ _ I)|]].
      + intros (v & Iv & Wv & Fv). apply (f_fin _ _ _ _ _ _ _ I) in Fv. destruct Fv as [_ [[I1 F1]|(v2 & I2 & F2 & W2)]].
        * left. exists v. split; [exact I1|]. split; [|exact F1]. rewrite <- Wv. symmetry. apply (f_old _ _ _ _ _ _ _ I). exact I1.
        * right. exists v2. split; [exact I2|]. split; [congruence|exact F2].
      + intros [(v & Iv & Wv & Fv)|(v2 & Iv & Wv & Fv)].
        * destruct (f_old _ _ _ _ _ _ _ I v Iv) as [X Y]. exists v. split; [exact X|]. split; [congruence|]. apply (f_fin1 _ _ _ _ _ _ _ I). exact Fv.
        * assert (Ip : In v2 (Pr ++ seconds [])) by (rewrite app_nil_r; apply (All _ _ eq_refl Iv)).
          destruct (f_seen _ _ _ _ _ _ _ I v2 Ip) as [_ (v & X & Y & Z)]. exists v. split; [exact X|]. split; [congruence|]. apply Z. exact Fv.
      + intros x. split.
        * intros (v & Iv & Wv). destruct (f_new _ _ _ _ _ _ _ I v Iv) as [I1|H2]; [left|right; rewrite <- Wv; exact H2].
          exists v. split; [exact I1|]. rewrite <- Wv. symmetry. apply (f_old _ _ _ _ _ _ _ I). exact I1.
        * intros [(v & Iv & Wv)|(v2 & Iv & Wv)].
          -- destruct (f_old _ _ _ _ _ _ _ I v Iv) as [X Y]. exists v. split; [exact X|congruence].
          -- assert (Ip : In v2 (Pr ++ seconds [])) by (rewrite app_nil_r; apply (All _ _ eq_refl Iv)).
             destruct (f_seen _ _ _ _ _ _ _ I v2 Ip) as [_ (v & X & Y & Z)]. exists v. split; [exact X|congruence].
  Qed.
End P.
