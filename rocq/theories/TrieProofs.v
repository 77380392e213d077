(** Tries: the states are in bijection with the words spelled from the root. *)
From Verif Require Import Base BaseProofs Graph GraphProofs Automaton AutomatonSpec AutomatonProofs Trie TrieSpec.
#[local] Arguments dkeys : simpl never.

Section P.
  Context {A : Type} {EA : EqDec A}.

  (** [shape g word]: a tree rooted at 0 whose node [v] is reached by [word v]. *)
  Record shape (g : aut A) (word : nat -> list A) : Prop := {
    sh_rep : exists s, arep g s;
    sh_q0 : A_initial g = Some 0;
    sh_root : In 0 (A_vertices g);
    sh_word0 : word 0 = [];
    sh_edge : forall q a r, A_delta g q a = Some r ->
      In q (A_vertices g) /\ In r (A_vertices g) /\ r <> 0 /\ word r = word q ++ [a];
    sh_in : forall v, In v (A_vertices g) -> v <> 0 -> exists q a, A_delta g q a = Some v;
    sh_lt : forall v, In v (A_vertices g) -> v < au_last g }.

  Lemma shape_path g word : shape g word -> forall w v,
    A_delta_word g (Some 0) w = Some v <-> In v (A_vertices g) /\ word v = w.
  Proof.
    intros S. destruct (sh_rep _ _ S) as (s & R).
    assert (Fwd : forall w q v, In q (A_vertices g) -> path (A_edges g) q w v -> In v (A_vertices g) /\ word v = word q ++ w).
    { intros w q v Iq P. induction P as [q|q a r w t E P IH].
      - rewrite app_nil_r. auto.
      - apply (obs_delta_edges _ _ R) in E. apply (sh_edge _ _ S) in E. destruct E as (_ & Ir & _ & Er).
        destruct (IH Ir) as [It ->]. rewrite Er, <- app_assoc. auto. }
    assert (Bwd : forall n v, In v (A_vertices g) -> length (word v) = n -> A_delta_word g (Some 0) (word v) = Some v).
    { assert (App : forall u v q r a, A_delta_word g q u = Some r -> A_delta g r a = Some v -> A_delta_word g q (u ++ [a]) = Some v).
      { induction u as [|b u IH]; intros v q r a E D; cbn in *; [subst; cbn; rewrite D; reflexivity|].
        destruct q; [|discriminate]. eapply IH; eassumption. }
      induction n as [n IH] using lt_wf_ind. intros v Iv Ln.
      destruct (Nat.eq_dec v 0) as [->|N0]; [rewrite (sh_word0 _ _ S); reflexivity|].
      destruct (sh_in _ _ S v Iv N0) as (q & a & E). pose proof (sh_edge _ _ S _ _ _ E) as (Iq & _ & _ & W).
      rewrite W. eapply App; [|exact E]. apply (IH (length (word q))); [|exact Iq|reflexivity].
      rewrite <- Ln, W, app_length. cbn. lia. }
    intros w v. split.
    - intros E. apply (delta_word_path _ _ R) in E. apply Fwd in E; [|apply S].
      rewrite (sh_word0 _ _ S) in E. exact E.
    - intros [Iv <-]. apply (Bwd _ _ Iv eq_refl).
  Qed.

  Lemma shape_inj g word : shape g word -> forall u v, In u (A_vertices g) -> In v (A_vertices g) ->
    word u = word v -> u = v.
  Proof.
    intros S u v Iu Iv E. pose proof (proj2 (shape_path _ _ S _ u) (conj Iu eq_refl)) as X.
    pose proof (proj2 (shape_path _ _ S _ v) (conj Iv eq_refl)) as Y. congruence.
  Qed.

  (** Words of the nodes, and language. *)
  Definition prefix_of (g : aut A) (w : list A) : Prop := exists v, A_delta_word g (Some 0) w = Some v.

  Lemma shape_accepts g word : shape g word -> forall w,
    A_accepts g w = true <-> exists v, In v (A_vertices g) /\ word v = w /\ A_is_final g v = true.
  Proof.
    intros S w. unfold A_accepts. rewrite (sh_q0 _ _ S). split.
    - destruct (A_delta_word g (Some 0) w) as [v|] eqn:E; [|discriminate]. intros F.
      apply (shape_path _ _ S) in E. exists v. tauto.
    - intros (v & Iv & W & F). assert (E : A_delta_word g (Some 0) w = Some v) by (apply (shape_path _ _ S); auto).
      rewrite E. exact F.
  Qed.

  Lemma delta_add_vertex g : (exists s, arep g s) -> forall q a, A_delta (fst (A_add_vertex g)) q a = A_delta g q a.
  Proof.
    intros (s & R) q a. unfold A_add_vertex, A_delta. cbn. rewrite dget_dset.
    destruct (eqb_spec q (au_last g)) as [->|]; [|reflexivity].
    destruct (dget (au_adj g) (au_last g)) as [d|] eqn:E; [|reflexivity].
    exfalso. apply dget_Some_key in E. destruct R as (L & V & _ & _ & _ & _ & LT). rewrite V in E. apply LT in E. lia.
  Qed.

  (** Adding a fresh leaf. *)
  Lemma shape_leaf g word q a : shape g word -> In q (A_vertices g) -> A_delta g q a = None ->
    exists g1 g2 e, A_add_vertex g = (g1, Ok (au_last g)) /\ A_add_edge g1 q (au_last g) a = (g2, Ok (e, true)) /\
      A_vertices g2 = A_vertices g ++ [au_last g] /\
      (forall x, A_is_final g2 x = A_is_final g x) /\ ~ In (au_last g) (A_vertices g) /\
      (forall p b, A_delta g2 p b = if (p =? q) && eqb b a then Some (au_last g) else A_delta g p b) /\
      au_last g2 = S (au_last g) /\
      shape g2 (fun v => if v =? au_last g then word q ++ [a] else word v).
  Proof.
    intros S Iq D. pose proof (sh_rep _ _ S) as (s & R).
    assert (NI : ~ In (au_last g) (A_vertices g)) by (intros I; apply (sh_lt _ _ S) in I; lia).
    assert (NE : q <> au_last g) by (intros ->; contradiction).
    destruct (A_step _ _ AAddVertex R) as [R1 _].
    pose proof (delta_add_vertex g (ex_intro _ s R)) as D1.
    assert (V1 : A_vertices (fst (A_add_vertex g)) = A_vertices g ++ [au_last g]).
    { unfold A_vertices at 1. cbn. apply dkeys_dset_new. exact NI. }
    exists (fst (A_add_vertex g)).
    change (fst (A_call g AAddVertex)) with (fst (A_add_vertex g)) in R1.
    set (g1 := fst (A_add_vertex g)) in *. set (s1 := fst (aa_step s AAddVertex)) in *.
    destruct (A_step _ _ (AAddEdge q (au_last g) a) R1) as [R2 _].
    cbn [A_call] in R2. unfold A_add_edge in *. rewrite D1, D in *. cbn [negb] in *.
    assert (Iq1 : In q (A_vertices g1)) by (rewrite V1; apply in_app_iff; auto).
    apply key_dget in Iq1. destruct Iq1 as (d & Ed). rewrite Ed in *. cbn [fst] in R2.
    set (g2 := mkAut (au_last g1) (dset (au_adj g1) q (dset d a (au_last g))) (au_q0 g1) (au_final g1)) in *.
    assert (D2 : forall p b, A_delta g2 p b = if (p =? q) && eqb b a then Some (au_last g) else A_delta g p b).
    { intros p b. rewrite <- D1. unfold A_delta at 1. unfold g2. cbn [au_adj]. rewrite dget_dset.
      destruct (eqb_spec p q) as [->|Np].
      - rewrite Nat.eqb_refl. cbn [andb]. rewrite dget_dset. destruct (eqb b a); [reflexivity|].
        unfold A_delta. rewrite Ed. reflexivity.
      - destruct (Nat.eqb_spec p q); [congruence|]. reflexivity. }
    assert (V2 : A_vertices g2 = A_vertices g ++ [au_last g]).
    { rewrite <- V1. unfold A_vertices, g2. cbn. apply dkeys_dset_old. eapply dget_Some_key. exact Ed. }
    exists g2, (Some (Edge q (au_last g) a)).
    split; [reflexivity|]. split; [reflexivity|]. split; [exact V2|]. split; [reflexivity|]. split; [exact NI|].
    split; [exact D2|]. split; [reflexivity|].
    constructor.
    - eexists. exact R2.
    - exact (sh_q0 _ _ S).
    - rewrite V2. apply in_app_iff. left. apply S.
    - destruct (Nat.eqb_spec 0 (au_last g)) as [E|]; [|apply S]. exfalso. apply NI. rewrite <- E. apply S.
    - intros p b r E. rewrite D2 in E. rewrite V2, !in_app_iff.
      destruct (Nat.eqb_spec p q) as [->|Np], (eqb_spec b a) as [->|Nb]; cbn in E.
      + injection E as <-. rewrite Nat.eqb_refl. destruct (Nat.eqb_spec q (au_last g)); [congruence|].
        cbn. repeat split; auto. intros E. apply NI. rewrite E. apply S.
      + apply (sh_edge _ _ S) in E. destruct E as (I1 & I2 & N0 & W).
        destruct (Nat.eqb_spec r (au_last g)) as [->|]; [contradiction|].
        destruct (Nat.eqb_spec q (au_last g)) as [|]; [congruence|]. auto.
      + apply (sh_edge _ _ S) in E. destruct E as (I1 & I2 & N0 & W).
        destruct (Nat.eqb_spec r (au_last g)) as [->|]; [contradiction|].
        destruct (Nat.eqb_spec p (au_last g)) as [->|]; [contradiction|]. auto.
      + apply (sh_edge _ _ S) in E. destruct E as (I1 & I2 & N0 & W).
        destruct (Nat.eqb_spec r (au_last g)) as [->|]; [contradiction|].
        destruct (Nat.eqb_spec p (au_last g)) as [->|]; [contradiction|]. auto.
    - intros v Iv N0. rewrite V2 in Iv. apply in_app_iff in Iv. destruct Iv as [Iv|[<-|[]]].
      + destruct (sh_in _ _ S v Iv N0) as (p & b & E). exists p, b. rewrite D2.
        destruct (Nat.eqb_spec p q) as [->|], (eqb_spec b a) as [->|]; cbn; congruence.
      + exists q, a. rewrite D2, Nat.eqb_refl, eqb_refl. reflexivity.
    - intros v Iv. rewrite V2 in Iv. change (au_last g2) with (Datatypes.S (au_last g)).
      apply in_app_iff in Iv. destruct Iv as [Iv|[<-|[]]]; [apply (sh_lt _ _ S) in Iv|]; lia.
  Qed.

  Lemma shape_init : shape T_init (fun _ => []).
  Proof.
    constructor.
    - exists (aa_init 1). apply (arep_init 1).
    - reflexivity.
    - left. reflexivity.
    - reflexivity.
    - unfold T_init, A_delta. cbn. intros q a r. destruct (eqb q 0); discriminate.
    - cbn. intros v [<-|[]] N; contradiction.
    - intros v [<-|[]]. exact (le_n 1).
  Qed.

  Definition has_word (g : aut A) (word : nat -> list A) u : Prop := exists v, In v (A_vertices g) /\ word v = u.

  (** Growing a branch: the words become the old ones and the prefixes of [word q ++ u]. *)
  Lemma insert_loop_spec u : forall g word q, shape g word -> In q (A_vertices g) ->
    match u with [] => True | a :: _ => A_delta g q a = None end ->
    exists g' q' word', insert_loop g q u = (g', Ok q') /\ shape g' word' /\ In q' (A_vertices g') /\
      word' q' = word q ++ u /\ (forall x, A_is_final g' x = A_is_final g x) /\
      (forall v, In v (A_vertices g) -> In v (A_vertices g') /\ word' v = word v) /\
      (forall x, has_word g' word' x <-> has_word g word x \/ exists k, k <= length u /\ x = word q ++ firstn k u).
  Proof.
    induction u as [|a u IH]; intros g word q S Iq D; cbn [insert_loop].
    - exists g, q, word. split; [reflexivity|]. split; [exact S|]. split; [exact Iq|].
      split; [rewrite app_nil_r; reflexivity|]. split; [reflexivity|]. split; [auto|].
      intros x. split; [auto|]. intros [X|(k & _ & ->)]; [exact X|]. exists q. split; [exact Iq|].
      rewrite firstn_nil, app_nil_r. reflexivity.
    - destruct (shape_leaf g word q a S Iq D) as (g1 & g2 & e & E1 & E2 & V & F & NI & D2 & L2 & S2).
      rewrite E1, E2.
      destruct (IH g2 _ (au_last g) S2) as (g' & q' & word' & E & S' & I' & W' & F' & Old & New).
      + rewrite V. apply in_app_iff. right. left. reflexivity.
      + destruct u as [|b u]; [exact I|]. rewrite D2.
        destruct (Nat.eqb_spec (au_last g) q) as [<-|]; [contradiction|]. cbn.
        destruct (A_delta g (au_last g) b) as [x|] eqn:Ex; [|reflexivity].
        apply (sh_edge _ _ S) in Ex. tauto.
      + exists g', q', word'. split; [exact E|]. split; [exact S'|]. split; [exact I'|].
        rewrite Nat.eqb_refl in W'. rewrite W', <- app_assoc. split; [reflexivity|].
        split; [intros x; rewrite F', F; reflexivity|]. split.
        * intros v Iv. destruct (Old v) as [I1 W1]; [rewrite V; apply in_app_iff; auto|].
          split; [exact I1|]. rewrite W1. destruct (Nat.eqb_spec v (au_last g)) as [->|]; [contradiction|reflexivity].
        * assert (H2 : forall x, has_word g2 (fun v => if v =? au_last g then word q ++ [a] else word v) x <->
                    has_word g word x \/ x = word q ++ [a]).
          { intros x. unfold has_word. rewrite V. split.
            - intros (v & Iv & Wv). apply in_app_iff in Iv. destruct (Nat.eqb_spec v (au_last g)) as [->|Nv]; [auto|].
              left. exists v. split; [|exact Wv]. destruct Iv as [Iv|[X|[]]]; [exact Iv|congruence].
            - intros [(v & Iv & Wv)|Ex]; [|subst x].
              + exists v. split; [apply in_app_iff; auto|]. destruct (Nat.eqb_spec v (au_last g)) as [->|]; [contradiction|exact Wv].
              + exists (au_last g). split; [apply in_app_iff; right; left; reflexivity|]. rewrite Nat.eqb_refl. reflexivity. }
          intros x. rewrite New, H2, Nat.eqb_refl. cbn [length]. split.
          -- intros [[X|X]|(k & Lk & ->)]; [auto|subst x|].
             ++ right. exists 1. split; [lia|reflexivity].
             ++ right. exists (Datatypes.S k). split; [lia|]. cbn. rewrite <- app_assoc. reflexivity.
          -- intros [X|(k & Lk & ->)]; [auto|]. destruct k as [|k].
             ++ left. left. exists q. split; [exact Iq|]. cbn. rewrite app_nil_r. reflexivity.
             ++ right. exists k. split; [lia|]. cbn. rewrite <- app_assoc. reflexivity.
  Qed.

  Lemma best_effort_spec g word : shape g word -> forall w q i, In q (A_vertices g) ->
    exists k, best_effort g q i w = (fst (best_effort g q i w), i + k) /\
      In (fst (best_effort g q i w)) (A_vertices g) /\
      word (fst (best_effort g q i w)) = word q ++ firstn k w /\ k <= length w /\
      match skipn k w with [] => True | a :: _ => A_delta g (fst (best_effort g q i w)) a = None end.
  Proof.
    intros S. induction w as [|a w IH]; intros q i Iq; cbn.
    - exists 0. rewrite Nat.add_0_r. cbn. rewrite app_nil_r. auto.
    - destruct (A_delta g q a) as [r|] eqn:E.
      + pose proof (sh_edge _ _ S _ _ _ E) as (_ & Ir & _ & W). destruct (IH r (Datatypes.S i) Ir) as (k & E1 & I1 & W1 & L1 & M1).
        exists (Datatypes.S k). cbn. split; [rewrite E1 at 1; f_equal; lia|]. split; [exact I1|].
        split; [rewrite W1, W, <- app_assoc; reflexivity|]. split; [lia|exact M1].
      + exists 0. cbn. rewrite Nat.add_0_r, app_nil_r. repeat split; auto. lia.
  Qed.

  Lemma shape_set_final g word q b : shape g word -> shape (A_set_final g q b) word.
  Proof.
    intros [R Q0 R0 W0 E I L]. constructor; try assumption. destruct R as (s & R).
    eexists. apply (A_step _ _ (ASetFinal q b) R).
  Qed.

  (** A trie whose final flags are those of existing states. *)
  Definition trie (g : aut A) : Prop := exists word, shape g word /\ forall v, A_is_final g v = true -> In v (A_vertices g).

  Lemma T_insert_spec g word w : shape g word -> (forall v, A_is_final g v = true -> In v (A_vertices g)) ->
    exists g' word', T_insert g w = (g', Ok tt) /\ shape g' word' /\ (forall v, A_is_final g' v = true -> In v (A_vertices g')) /\
      (forall u, A_accepts g' u = true <-> u = w \/ A_accepts g u = true) /\
      (forall x, has_word g' word' x <-> has_word g word x \/ is_prefix x w).
  Proof.
    intros S F. unfold T_insert. rewrite (sh_q0 _ _ S).
    destruct (best_effort_spec g word S w 0 0 (sh_root _ _ S)) as (k & E & I0 & W0 & Lk & M).
    rewrite E. set (q := fst (best_effort g 0 0 w)) in *. cbn [plus]. rewrite (sh_word0 _ _ S) in W0. cbn in W0.
    destruct (insert_loop_spec (skipn k w) g word q S I0 M) as (g1 & q1 & word1 & E1 & S1 & I1 & W1 & F1 & Old & New).
    rewrite E1. rewrite W0, firstn_skipn in W1.
    exists (A_set_final g1 q1 true), word1. split; [reflexivity|]. split; [apply shape_set_final; exact S1|].
    assert (FF : forall v, A_is_final (A_set_final g1 q1 true) v = true <-> v = q1 \/ A_is_final g v = true).
    { intros v. rewrite <- (F1 v). unfold A_is_final, A_set_final. cbn [au_final].
      destruct (eqb_spec v q1); intuition congruence. }
    split; [|split].
    - intros v Fv. apply FF in Fv. change (A_vertices (A_set_final g1 q1 true)) with (A_vertices g1).
      destruct Fv as [->|Fv]; [exact I1|]. apply Old. apply F. exact Fv.
    - intros u. rewrite (shape_accepts _ _ (shape_set_final _ _ q1 true S1)), (shape_accepts _ _ S).
      change (A_vertices (A_set_final g1 q1 true)) with (A_vertices g1). split.
      + intros (v & Iv & Wv & Fv). apply FF in Fv. destruct Fv as [->|Fv]; [left; congruence|].
        right. exists v. destruct (Old v (F _ Fv)) as [_ W2]. split; [apply F; exact Fv|]. split; [congruence|exact Fv].
      + intros [Eu|(v & Iv & Wv & Fv)]; [subst u|].
        * exists q1. split; [exact I1|]. split; [exact W1|]. apply FF. left. reflexivity.
        * exists v. destruct (Old v Iv) as [I2 W2]. split; [exact I2|]. split; [congruence|]. apply FF. right. exact Fv.
    - intros x. change (has_word g1 word1 x <-> has_word g word x \/ is_prefix x w). rewrite New, W0. split.
      + intros [X|(k' & Lk' & ->)]; [auto|]. right. exists (skipn k' (skipn k w)).
        rewrite <- app_assoc, firstn_skipn, firstn_skipn. reflexivity.
      + intros [X|(y & Ew)]; [auto|]. destruct (Nat.le_gt_cases (length x) k) as [Lx|Lx].
        * left. assert (Ex : x = firstn (length x) (firstn k w)).
          { rewrite firstn_firstn, Nat.min_l by lia. rewrite Ew, firstn_app, Nat.sub_diag, firstn_all. cbn. rewrite app_nil_r. reflexivity. }
          (* every prefix of the word of a node is the word of a node *)
          assert (PC : forall n v, In v (A_vertices g) -> has_word g word (firstn n (word v))).
          { intros n v. remember (length (word v)) as m eqn:Em. revert v Em.
            induction m as [m IHm] using lt_wf_ind. intros v Em Iv.
            destruct (Nat.le_gt_cases m n) as [Ln|Ln]; [rewrite firstn_all2 by lia; exists v; auto|].
            destruct (Nat.eq_dec v 0) as [->|N0]; [rewrite (sh_word0 _ _ S) in Em; cbn in Em; lia|].
            destruct (sh_in _ _ S v Iv N0) as (p & b & Ed). pose proof (sh_edge _ _ S _ _ _ Ed) as (Ip & _ & _ & Wp).
            rewrite Wp, app_length in Em. cbn in Em. rewrite Wp, firstn_app.
            replace (n - length (word p)) with 0 by lia. cbn [firstn]. rewrite app_nil_r.
            apply (IHm (length (word p))); [lia|reflexivity|exact Ip]. }
          rewrite Ex, <- W0. apply PC. exact I0.
        * right. exists (length x - k). split.
          -- rewrite skipn_length, Ew, app_length. lia.
          -- rewrite Ew. rewrite firstn_app, skipn_app. replace (k - length x) with 0 by lia. cbn [firstn skipn].
             rewrite app_nil_r, firstn_app, skipn_length. replace (length x - k - (length x - k)) with 0 by lia. cbn [firstn].
             rewrite app_nil_r. rewrite firstn_all2 with (n := length x - k) by (rewrite skipn_length; lia).
             rewrite firstn_skipn. reflexivity.
  Qed.

  Lemma T_inserts_spec ws : forall g word, shape g word -> (forall v, A_is_final g v = true -> In v (A_vertices g)) ->
    exists g' word', T_inserts g ws = (g', Ok tt) /\ shape g' word' /\ (forall v, A_is_final g' v = true -> In v (A_vertices g')) /\
      (forall u, A_accepts g' u = true <-> In u ws \/ A_accepts g u = true) /\
      (forall x, has_word g' word' x <-> has_word g word x \/ exists w, In w ws /\ is_prefix x w).
  Proof.
    induction ws as [|w ws IH]; intros g word S F; cbn.
    - exists g, word. split; [reflexivity|]. split; [exact S|]. split; [exact F|]. split; [intros; tauto|].
      intros x. split; [auto|]. intros [X|(w & [] & _)]; exact X.
    - destruct (T_insert_spec g word w S F) as (g1 & word1 & -> & S1 & F1 & A1 & H1).
      destruct (IH _ _ S1 F1) as (g' & word' & E & S' & F' & A' & H'). exists g', word'.
      split; [exact E|]. split; [exact S'|]. split; [exact F'|]. split; [intros u; rewrite A', A1; intuition congruence|].
      intros x. rewrite H', H1. split.
      + intros [[X|X]|(v & Iv & X)]; [auto|right; exists w; auto|right; exists v; auto].
      + intros [X|(v & [<-|Iv] & X)]; [auto|auto|]. right. exists v. auto.
  Qed.

  Lemma T_init_final : forall v, A_is_final (T_init (A:=A)) v = true -> In v (A_vertices (T_init (A:=A))).
  Proof. discriminate. Qed.
  Lemma T_init_accepts : forall u, A_accepts (T_init (A:=A)) u = false.
  Proof.
    intros u. unfold A_accepts. destruct (A_delta_word T_init (A_initial T_init) u); reflexivity.
  Qed.

  (** The edges are in bijection with the non-root vertices. *)
  Lemma shape_num_edges g word : shape g word -> length (A_edges g) = length (A_vertices g) - 1.
  Proof.
    intros S. destruct (sh_rep _ _ S) as (s & R).
    assert (ND : NoDup (A_vertices g)) by apply R.
    assert (P : Permutation (map target (A_edges g)) (srem 0 (A_vertices g))).
    { apply NoDup_Permutation.
      - apply NoDup_map_inj_in; [apply NoDup_tedges; apply R|].
        intros [q r a] [q' r' a'] I I' E. cbn in E. subst r'.
        apply (obs_delta_edges _ _ R) in I, I'.
        pose proof (sh_edge _ _ S _ _ _ I) as (Iq & _ & _ & W). pose proof (sh_edge _ _ S _ _ _ I') as (Iq' & _ & _ & W').
        rewrite W in W'. apply app_inj_tail in W'. destruct W' as [W' ->].
        rewrite (shape_inj _ _ S q q' Iq Iq' W'). reflexivity.
      - apply NoDup_srem. exact ND.
      - intros v. rewrite In_srem, in_map_iff. split.
        + intros ([q r a] & <- & I). apply (obs_delta_edges _ _ R) in I. apply (sh_edge _ _ S) in I. cbn. tauto.
        + intros [N0 Iv]. destruct (sh_in _ _ S v Iv N0) as (q & a & E). exists (Edge q v a).
          split; [reflexivity|]. apply (obs_delta_edges _ _ R). exact E. }
    apply Permutation_length in P. rewrite map_length in P. rewrite P. clear P.
    assert (I0 := sh_root _ _ S). apply in_split in I0. destruct I0 as (l1 & l2 & E). rewrite E in *.
    assert (NI : ~ In 0 (l1 ++ l2)) by (apply NoDup_remove_2; exact ND).
    unfold srem. rewrite filter_app. cbn. rewrite <- filter_app. fold (srem 0 (l1 ++ l2)).
    rewrite srem_notin by exact NI. rewrite !app_length. cbn. lia.
  Qed.

  (** ** Suffix tries *)

  Lemma suffix_walk_spec u : forall g word q, shape g word -> In q (A_vertices g) ->
    exists g' word', suffix_walk g q u = (g', Ok tt) /\ shape g' word' /\
      (forall x, A_is_final g' x = A_is_final g x) /\
      forall x, has_word g' word' x <-> has_word g word x \/ exists k, k <= length u /\ x = word q ++ firstn k u.
  Proof.
    induction u as [|a u IH]; intros g word q S Iq; cbn [suffix_walk].
    - exists g, word. split; [reflexivity|]. split; [exact S|]. split; [reflexivity|]. intros x. split; [tauto|].
      intros [X|(k & _ & ->)]; [exact X|]. exists q. split; [exact Iq|]. rewrite firstn_nil, app_nil_r. reflexivity.
    - destruct (A_delta g q a) as [r|] eqn:E.
      + pose proof (sh_edge _ _ S _ _ _ E) as (_ & Ir & _ & W).
        destruct (IH g word r S Ir) as (g' & word' & E' & S' & F' & H'). exists g', word'.
        split; [exact E'|]. split; [exact S'|]. split; [exact F'|]. intros x. rewrite H'. cbn [length]. split.
        * intros [X|(k & Lk & ->)]; [auto|]. right. exists (Datatypes.S k). split; [lia|]. cbn. rewrite W, <- app_assoc. reflexivity.
        * intros [X|(k & Lk & ->)]; [auto|]. destruct k as [|k].
          -- left. exists q. split; [exact Iq|]. cbn. rewrite app_nil_r. reflexivity.
          -- right. exists k. split; [lia|]. cbn. rewrite W, <- app_assoc. reflexivity.
      + destruct (shape_leaf g word q a S Iq E) as (g1 & g2 & e & E1 & E2 & V & F & NI & D2 & L2 & S2).
        rewrite E1, E2. destruct (IH g2 _ (au_last g) S2) as (g' & word' & E' & S' & F' & H').
        { rewrite V. apply in_app_iff. right. left. reflexivity. }
        exists g', word'. split; [exact E'|]. split; [exact S'|]. split; [intros x; rewrite F', F; reflexivity|].
        assert (H2 : forall x, has_word g2 (fun v => if v =? au_last g then word q ++ [a] else word v) x <->
                    has_word g word x \/ x = word q ++ [a]).
        { intros x. unfold has_word. rewrite V. split.
          - intros (v & Iv & Wv). apply in_app_iff in Iv. destruct (Nat.eqb_spec v (au_last g)) as [->|Nv]; [auto|].
            left. exists v. split; [|exact Wv]. destruct Iv as [Iv|[X|[]]]; [exact Iv|congruence].
          - intros [(v & Iv & Wv)|Ex]; [|subst x].
            + exists v. split; [apply in_app_iff; auto|]. destruct (Nat.eqb_spec v (au_last g)) as [->|]; [contradiction|exact Wv].
            + exists (au_last g). split; [apply in_app_iff; right; left; reflexivity|]. rewrite Nat.eqb_refl. reflexivity. }
        intros x. rewrite H', H2, Nat.eqb_refl. cbn [length]. split.
        * intros [[X|X]|(k & Lk & ->)]; [auto|subst x|].
          -- right. exists 1. split; [lia|reflexivity].
          -- right. exists (Datatypes.S k). split; [lia|]. cbn. rewrite <- app_assoc. reflexivity.
        * intros [X|(k & Lk & ->)]; [auto|]. destruct k as [|k].
          -- left. left. exists q. split; [exact Iq|]. cbn. rewrite app_nil_r. reflexivity.
          -- right. exists k. split; [lia|]. cbn. rewrite <- app_assoc. reflexivity.
  Qed.

  Lemma shape_ext_final g word f : shape g word -> shape (mkAut (au_last g) (au_adj g) (au_q0 g) f) word.
  Proof.
    intros [R Q0 R0 W0 E I L]. constructor; try assumption. destruct R as (s & R1 & R2 & R3 & R4 & R5 & R6 & R7).
    exists (AA (aa_next s) (aa_V s) (aa_T s) (aa_q0 s) f). exact (conj R1 (conj R2 (conj R3 (conj R4 (conj R5 (conj (fun _ => eq_refl) R7)))))).
  Qed.

  Lemma suffix_loop_spec w max_len L : forall g word, shape g word ->
    exists g' word', foreach (fun g i =>
      match A_initial g with
      | None => (g, Raise KeyError)
      | Some q0 => suffix_walk g q0 (slice w i (stop (length w) i max_len))
      end) g L = (g', Ok tt) /\ shape g' word' /\ (forall x, A_is_final g' x = A_is_final g x) /\
      forall x, has_word g' word' x <-> has_word g word x \/
        exists i k, In i L /\ k <= length (slice w i (stop (length w) i max_len)) /\ x = firstn k (slice w i (stop (length w) i max_len)).
  Proof.
    induction L as [|i L IH]; intros g word S; cbn [foreach].
    - exists g, word. split; [reflexivity|]. split; [exact S|]. split; [reflexivity|]. intros x. split; [auto|].
      intros [X|(i & k & [] & _)]. exact X.
    - rewrite (sh_q0 _ _ S).
      destruct (suffix_walk_spec (slice w i (stop (length w) i max_len)) g word 0 S (sh_root _ _ S)) as (g1 & word1 & E1 & S1 & F1 & H1).
      rewrite E1. destruct (IH _ _ S1) as (g' & word' & E' & S' & F' & H'). exists g', word'.
      split; [exact E'|]. split; [exact S'|]. split; [intros x; rewrite F', F1; reflexivity|].
      intros x. rewrite H', H1, (sh_word0 _ _ S). cbn [app In]. split.
      + intros [[X|(k & Lk & ->)]|(j & k & Ij & X)]; [auto| |]; right; [exists i, k|exists j, k]; auto.
      + intros [X|(j & k & [<-|Ij] & Lk & ->)]; [auto| |]; [left; right|right]; eauto 6.
  Qed.
End P.
