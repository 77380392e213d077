(** Theorems C18, C43, C44, C45, C46: the users of the parallel breadth first search. *)
From Verif Require Import Base BaseProofs Graph GraphProofs Automaton AutomatonSpec AutomatonProofs
  Trie TrieSpec TrieProofs PBFS PBFSProofs PBFSProofs2 PBFSProofs3 PBFSProofs4.
#[local] Arguments dkeys : simpl never.

Section T.
  Context {A : Type} {EA : EqDec A}.

  (** The tries one can build: Trie(), then any insertions of words and of other tries. *)
  Inductive is_trie : aut A -> Prop :=
  | is_trie_init : is_trie T_init
  | is_trie_word g g' w : is_trie g -> T_insert g w = (g', Ok tt) -> is_trie g'
  | is_trie_fusion g1 g2 g' ord fuel : is_trie g1 -> is_trie g2 -> valid_order ord ->
      T_fusion g2 ord fuel g1 = Some (g', Ok tt) -> is_trie g'.

  (** a larger fuel does not change the outcome *)
  Lemma pbfs_loop_mono {St} (get1 : St -> aut A) g2 ord he hd ip fuel : forall fuel' n s Q col r, fuel <= fuel' ->
    pbfs_loop get1 g2 ord he hd ip fuel n s Q col = Some r -> pbfs_loop get1 g2 ord he hd ip fuel' n s Q col = Some r.
  Proof.
    induction fuel as [|fuel IH]; intros fuel' n s Q col r L E; [discriminate|]. destruct fuel' as [|fuel']; [lia|].
    cbn [pbfs_loop] in *. destruct Q as [|[q1 q2] Q]; [exact E|].
    destruct (symbols get1 g2 he hd ip q1 q2 _ s Q col) as [[[s' Q'] col'] [[]|x]]; [|exact E].
    apply IH; [lia|exact E].
  Qed.
  Lemma fusion_mono g1 g2 ord fuel fuel' r : fuel <= fuel' ->
    T_fusion g2 ord fuel g1 = Some r -> T_fusion g2 ord fuel' g1 = Some r.
  Proof.
    unfold T_fusion, pbfs. intros L. destruct (fusion_start g2 (g1, []) _ _) as [s [[]|x]]; [|auto].
    destruct (pbfs_loop _ _ _ _ _ _ fuel _ _ _ _) as [[s' r']|] eqn:E; [|discriminate].
    rewrite (pbfs_loop_mono _ _ _ _ _ _ _ _ _ _ _ _ _ L E). auto.
  Qed.

  Lemma is_trie_shape g : is_trie g -> exists word, shape g word /\ (forall v, A_is_final g v = true -> In v (A_vertices g)).
  Proof.
    induction 1 as [|g g' w H (word & S & F) E|g1 g2 g' ord fuel H1 (w1 & S1 & F1) H2 (w2 & S2 & F2) OV E].
    - exists (fun _ => []). split; [apply shape_init|apply T_init_final].
    - destruct (T_insert_spec g word w S F) as (g'' & word' & E' & S' & F' & _). rewrite E in E'. injection E' as <-. exists word'. auto.
    - destruct (fusion_run g1 g2 w1 w2 S1 S2 F1 ord OV (fuel + fusion_fuel g1 g2)) as (g'' & word' & E' & S' & F' & _); [lia|].
      apply (fusion_mono _ _ _ _ (fuel + fusion_fuel g1 g2)) in E; [|lia]. rewrite E in E'. injection E' as <-. exists word'. auto.
  Qed.

  (** C18: t1.insert(t2) terminates without exception and t1 then accepts the union, whatever the
      iteration order of the sets of symbols. *)
  Theorem C18_trie_fusion (t1 t2 : aut A) ord fuel : is_trie t1 -> is_trie t2 -> valid_order ord ->
    (length (A_vertices t1) + 1) * (length (A_vertices t2) + 1) + 2 <= fuel ->
    exists t, T_fusion t2 ord fuel t1 = Some (t, Ok tt) /\
      forall u, A_accepts t u = true <-> A_accepts t1 u = true \/ A_accepts t2 u = true.
  Proof.
    intros H1 H2 OV L. destruct (is_trie_shape _ H1) as (w1 & S1 & F1), (is_trie_shape _ H2) as (w2 & S2 & F2).
    destruct (fusion_run t1 t2 w1 w2 S1 S2 F1 ord OV fuel L) as (t & _ & E & _ & _ & U & _). exists t. auto.
  Qed.

  (** the same for tries given by the words inserted in them *)
  Theorem C18_trie_fusion_words (ws1 ws2 : list (list A)) t1 t2 ord fuel :
    T_inserts T_init ws1 = (t1, Ok tt) -> T_inserts T_init ws2 = (t2, Ok tt) -> valid_order ord ->
    (length (A_vertices t1) + 1) * (length (A_vertices t2) + 1) + 2 <= fuel ->
    exists t, T_fusion t2 ord fuel t1 = Some (t, Ok tt) /\ forall u, A_accepts t u = true <-> In u ws1 \/ In u ws2.
  Proof.
    intros E1 E2 OV L.
    destruct (T_inserts_spec ws1 _ _ shape_init T_init_final) as (g1 & w1 & E1' & S1 & F1 & L1 & _).
    destruct (T_inserts_spec ws2 _ _ shape_init T_init_final) as (g2 & w2 & E2' & S2 & F2 & L2 & _).
    rewrite E1 in E1'. injection E1' as <-. rewrite E2 in E2'. injection E2' as <-.
    destruct (fusion_run t1 t2 w1 w2 S1 S2 F1 ord OV fuel L) as (t & _ & E & _ & _ & U & _). exists t. split; [exact E|].
    intros u. rewrite U, L1, L2, T_init_accepts. intuition discriminate.
  Qed.

  (** C43: deterministic_inclusion terminates and its four results are the four relations. *)
  Definition included (g1 g2 : aut A) : Prop := forall w, A_accepts g1 w = true -> A_accepts g2 w = true.

  Theorem C43_deterministic_inclusion (g1 g2 : aut A) ord fuel : valid_order ord ->
    (A_num_edges g1 + 1) * (A_num_edges g2 + 1) + 2 <= fuel ->
    exists r, deterministic_inclusion g1 g2 ord fuel = Some r /\
      (r = Some 0%Z <-> included g1 g2 /\ included g2 g1) /\
      (r = Some 1%Z <-> included g1 g2 /\ ~ included g2 g1) /\
      (r = Some (-1)%Z <-> included g2 g1 /\ ~ included g1 g2) /\
      (r = None <-> ~ included g1 g2 /\ ~ included g2 g1).
  Proof.
    intros OV L. destruct (inclusion_run g1 g2 ord fuel OV L) as (u & d & E & U & D).
    assert (I2 : included g2 g1 <-> u = false).
    { split.
      - intros I. destruct u; [|reflexivity]. destruct (proj1 U eq_refl) as (w & X & Y). apply I in Y. congruence.
      - intros -> w X. destruct (A_accepts g1 w) eqn:Y; [reflexivity|]. apply U. exists w. auto. }
    assert (I1 : included g1 g2 <-> d = false).
    { split.
      - intros I. destruct d; [|reflexivity]. destruct (proj1 D eq_refl) as (w & X & Y). apply I in X. congruence.
      - intros -> w X. destruct (A_accepts g2 w) eqn:Y; [reflexivity|]. apply D. exists w. auto. }
    eexists. split; [exact E|]. rewrite I1, I2. destruct u, d; cbn; intuition (discriminate || congruence).
  Qed.

  (** C44 is false as stated. Two things are lost: the empty word when no symbol is enabled in both
      initial states, and everything beyond a pair with a state number 0 (falsy) in it. *)
  Definition id_order {X} : set_order X := fun _ l => l.

  (** Exactly what is accepted, for all pairs of automata with an initial state: the words accepted
      by both automata, without the empty word when no symbol is enabled in both initial states, and
      without the words that go on after reaching a pair, other than the pair of initial states,
      that contains the state 0. *)
  Theorem C44_deterministic_intersection_exact (g1 g2 : aut A) ord fuel :
    A_initial g1 <> None -> A_initial g2 <> None -> valid_order ord ->
    (A_num_edges g1 + 1) * (A_num_edges g2 + 1) + 2 <= fuel ->
    exists g12, deterministic_intersection g1 g2 ord fuel = Some (g12, Ok tt) /\
      forall w, A_accepts g12 w = true <->
        (A_accepts g1 w = true /\ A_accepts g2 w = true) /\
        (w <> [] \/ exists a q1 q2, A_delta_word g1 (A_initial g1) [a] = Some q1 /\ A_delta_word g2 (A_initial g2) [a] = Some q2) /\
        (forall u a v q1 q2, w = u ++ a :: v ->
           A_delta_word g1 (A_initial g1) u = Some q1 -> A_delta_word g2 (A_initial g2) u = Some q2 ->
           (A_initial g1 = Some q1 /\ A_initial g2 = Some q2) \/ (q1 <> 0 /\ q2 <> 0)).
  Proof.
    intros N1 N2 OV L. destruct (inter_run g1 g2 ord fuel N1 N2 OV L) as (g & E & X). exists g.
    split; [exact E|]. intros w. rewrite X. clear X E.
    assert (E1 : (exists a, both (pw g1 g2 [a])) <->
      exists a q1 q2, A_delta_word g1 (A_initial g1) [a] = Some q1 /\ A_delta_word g2 (A_initial g2) [a] = Some q2).
    { split; intros (a & K); exists a.
      - unfold both, pw in K. cbn [fst snd] in K. destruct K as [K1 K2].
        destruct (A_delta_word g1 (A_initial g1) [a]) as [q1|]; [|congruence].
        destruct (A_delta_word g2 (A_initial g2) [a]) as [q2|]; [|congruence]. exists q1, q2. auto.
      - destruct K as (q1 & q2 & K1 & K2). unfold both, pw. cbn [fst snd]. rewrite K1, K2. split; discriminate. }
    rewrite E1. split; (intros (B & C & Z); split; [exact B|]; split; [exact C|]).
    - intros u a v q1 q2 Ew D1 D2. destruct (Z u a v Ew) as [Y|Y]; unfold pw, p0 in Y; rewrite D1, D2 in Y.
      + left. split; congruence.
      + right. destruct q1, q2; try discriminate. split; discriminate.
    - intros u a v Ew. unfold pw, p0.
      assert (Nn : forall h, A_accepts h w = true -> A_delta_word h (A_initial h) u <> None).
      { intros h Aw Y. rewrite accepts_final, Ew, delta_word_app, Y, delta_word_None in Aw. discriminate. }
      destruct B as [B1 B2]. apply Nn in B1, B2.
      destruct (A_delta_word g1 (A_initial g1) u) as [q1|] eqn:D1; [|congruence].
      destruct (A_delta_word g2 (A_initial g2) u) as [q2|] eqn:D2; [|congruence].
      destruct (Z u a v q1 q2 Ew D1 D2) as [[Y1 Y2]|[Y1 Y2]]; [left; congruence|right].
      destruct q1, q2; try congruence; reflexivity.
  Qed.

  (** What holds for all pairs of automata with an initial state: the call terminates, raises
      nothing, and every accepted word is in the intersection. If moreover no word leads to a pair
      containing the state 0, except to the pair of initial states, then the result is exactly the
      intersection, save for the empty word when no symbol is enabled in both initial states. *)
  Theorem C44_deterministic_intersection_partial (g1 g2 : aut A) ord fuel :
    A_initial g1 <> None -> A_initial g2 <> None -> valid_order ord ->
    (A_num_edges g1 + 1) * (A_num_edges g2 + 1) + 2 <= fuel ->
    exists g12, deterministic_intersection g1 g2 ord fuel = Some (g12, Ok tt) /\
      (forall w, A_accepts g12 w = true -> A_accepts g1 w = true /\ A_accepts g2 w = true) /\
      ((forall w q1 q2, A_delta_word g1 (A_initial g1) w = Some q1 -> A_delta_word g2 (A_initial g2) w = Some q2 ->
          (q1 = 0 \/ q2 = 0) -> A_initial g1 = Some q1 /\ A_initial g2 = Some q2) ->
       forall w, A_accepts g12 w = true <->
         (A_accepts g1 w = true /\ A_accepts g2 w = true) /\
         (w <> [] \/ exists a q1 q2, A_delta_word g1 (A_initial g1) [a] = Some q1 /\ A_delta_word g2 (A_initial g2) [a] = Some q2)).
  Proof.
    intros N1 N2 OV L. destruct (C44_deterministic_intersection_exact g1 g2 ord fuel N1 N2 OV L) as (g & E & X). exists g.
    split; [exact E|]. split; [intros w Y; apply X in Y; tauto|]. intros Z w. rewrite X. split; [tauto|].
    intros [B C]. split; [exact B|]. split; [exact C|]. intros u a v q1 q2 _ D1 D2.
    destruct (Nat.eq_dec q1 0) as [Y|Y]; [left; apply (Z u); auto|].
    destruct (Nat.eq_dec q2 0) as [Y'|Y']; [left; apply (Z u); auto|right; auto].
  Qed.

  (** C45, exactly: the language of the result is the union of the languages read after some word
      [x] that leads one of the two automata to its initial state ([x] may be empty; which one it is
      depends on the order in which the pairs are created), without the empty word when there is
      no transition at the beginning. *)
  Theorem C45_deterministic_union_exact (g1 g2 : aut A) ord fuel :
    valid_order ord ->
    (A_num_edges g1 + 1) * (A_num_edges g2 + 1) + 2 <= fuel ->
    exists g12 x, deterministic_union g1 g2 ord fuel = Some (g12, Ok tt) /\
      (A_delta_word g1 (A_initial g1) x = A_initial g1 \/ A_delta_word g2 (A_initial g2) x = A_initial g2) /\
      forall w, A_accepts g12 w = true <->
        (A_accepts g1 (x ++ w) = true \/ A_accepts g2 (x ++ w) = true) /\
        (x ++ w <> [] \/ exists a q, A_delta_word g1 (A_initial g1) [a] = Some q \/ A_delta_word g2 (A_initial g2) [a] = Some q).
  Proof.
    intros OV L. destruct (union_run g1 g2 ord fuel OV L) as (g & x & E & Hx & X). exists g, x.
    split; [exact E|]. split; [exact Hx|]. intros w. rewrite X.
    split; (intros [B [N|(a & K)]]; (split; [exact B|])); auto; right; exists a.
    - unfold live, pw in K. destruct (A_delta_word g1 (A_initial g1) [a]) as [q1|]; [exists q1; auto|].
      destruct (A_delta_word g2 (A_initial g2) [a]) as [q2|]; [exists q2; auto|]. congruence.
    - destruct K as (q & [K|K]); unfold live, pw; rewrite K; discriminate.
  Qed.

  (** C44: without initial state, the first symbol of the other initial state makes target(None) raise;
      when there is none the result is the empty automaton. *)
  Theorem C44_no_initial (g1 g2 : aut A) ord fuel :
    A_initial g1 = None \/ A_initial g2 = None -> valid_order ord -> 2 <= fuel ->
    ((exists a q, A_delta_word g1 (A_initial g1) [a] = Some q \/ A_delta_word g2 (A_initial g2) [a] = Some q) ->
       deterministic_intersection g1 g2 ord fuel = Some (A_init 0, Raise AttributeError)) /\
    ((forall a, A_delta_word g1 (A_initial g1) [a] = None /\ A_delta_word g2 (A_initial g2) [a] = None) ->
       deterministic_intersection g1 g2 ord fuel = Some (A_init 0, Ok tt)).
  Proof.
    intros N OV L. unfold deterministic_intersection, pbfs. cbn [no_vertex]. destruct fuel as [|[|fuel]]; [lia|lia|]. cbn [pbfs_loop].
    set (U := sunion (A_sigma g1 (A_initial g1)) (A_sigma g2 (A_initial g2))).
    assert (HU : forall a, In a U <-> odelta g1 (A_initial g1) a <> None \/ odelta g2 (A_initial g2) a <> None).
    { intros a. unfold U. rewrite In_sunion, !In_sigma. reflexivity. }
    assert (W : forall (g : aut A) a, A_delta_word g (A_initial g) [a] = odelta g (A_initial g) a).
    { intros g a. unfold odelta. destruct (A_initial g) as [q|]; cbn; [destruct (A_delta g q a)|]; reflexivity. }
    pose proof (OV 0 U) as P. destruct (ord 0 U) as [|a l].
    - apply Permutation_nil in P. split.
      + intros (a & q & D). rewrite !W in D. assert (X : In a U) by (apply HU; destruct D as [-> | ->]; [left|right]; discriminate).
        rewrite P in X. destruct X.
      + reflexivity.
    - assert (X : In a U) by (eapply Permutation_in; [exact P|left; reflexivity]). apply HU in X. split.
      + intros _. cbn [symbols]. unfold get_edge, inter_edge. destruct N as [N|N]; rewrite N in *.
        * reflexivity.
        * destruct (A_initial g1) as [q|]; [|reflexivity]. cbn [odelta] in X. destruct (A_delta g1 q a); [reflexivity|].
          destruct X; congruence.
      + intros Z. destruct (Z a) as [Z1 Z2]. rewrite W in Z1, Z2. destruct X; contradiction.
  Qed.

  (** C45 is false as stated: a pair that contains one of the two initial states becomes the initial
      state of the result, and the empty word is lost when there is no transition. When no word leads
      back to an initial state (except to both), the result is the union up to that empty word. *)
  Theorem C45_deterministic_union_partial (g1 g2 : aut A) ord fuel :
    A_initial g1 <> None -> A_initial g2 <> None -> valid_order ord ->
    (forall w, A_delta_word g1 (A_initial g1) w = A_initial g1 \/ A_delta_word g2 (A_initial g2) w = A_initial g2 ->
       A_delta_word g1 (A_initial g1) w = A_initial g1 /\ A_delta_word g2 (A_initial g2) w = A_initial g2) ->
    (A_num_edges g1 + 1) * (A_num_edges g2 + 1) + 2 <= fuel ->
    exists g12, deterministic_union g1 g2 ord fuel = Some (g12, Ok tt) /\
      forall w, A_accepts g12 w = true <->
        (A_accepts g1 w = true \/ A_accepts g2 w = true) /\
        (w <> [] \/ exists a q, A_delta_word g1 (A_initial g1) [a] = Some q \/ A_delta_word g2 (A_initial g2) [a] = Some q).
  Proof.
    intros N1 N2 OV NR L. destruct (C45_deterministic_union_exact g1 g2 ord fuel OV L) as (g & x & E & Hx & X).
    exists g. split; [exact E|]. intros w. rewrite X. destruct (NR x Hx) as [R1 R2].
    rewrite !accepts_final, !delta_word_app, R1, R2. split; (intros [B C]; split; [exact B|]); [|destruct C as [C|C]; [left|auto]].
    - destruct C as [C|C]; [|auto]. destruct w as [|b w]; [|left; discriminate]. right.
      rewrite app_nil_r in C. destruct x as [|a x]; [congruence|]. exists a.
      destruct (A_delta_word g1 (A_initial g1) [a]) as [q|] eqn:D1; [exists q; auto|].
      change (a :: x) with ([a] ++ x) in R1. rewrite delta_word_app, D1, delta_word_None in R1. congruence.
    - destruct x; [exact C|discriminate].
  Qed.

  (** C46: the counters of trie_matching, for tries given by their inserted words; [P] lists once
      each the prefixes of the words, with the empty word. *)
  Theorem C46_trie_matching (ws1 ws2 : list (list A)) t1 t2 ord fuel P :
    T_inserts T_init ws1 = (t1, Ok tt) -> T_inserts T_init ws2 = (t2, Ok tt) -> valid_order ord ->
    (A_num_edges t1 + 1) * (A_num_edges t2 + 1) + 2 <= fuel ->
    NoDup P -> (forall u, In u P <-> u = [] \/ exists w, (In w ws1 \/ In w ws2) /\ is_prefix u w) ->
    exists n0 n1 n2 n3, trie_matching t1 t2 ord fuel = Some ([n0; n1; n2; n3], Ok tt) /\
      let count (b1 b2 : bool) n := exists K, NoDup K /\ length K = n /\
        forall u, In u K <-> In u P /\ (if b1 then In u ws1 else ~ In u ws1) /\ (if b2 then In u ws2 else ~ In u ws2) in
      count false false n0 /\ count true false n1 /\ count false true n2 /\ count true true n3.
  Proof.
    intros E1 E2 OV L NP HP.
    destruct (T_inserts_spec ws1 _ _ shape_init T_init_final) as (g1 & w1 & E1' & S1 & F1 & L1 & H1).
    destruct (T_inserts_spec ws2 _ _ shape_init T_init_final) as (g2 & w2 & E2' & S2 & F2 & L2 & H2).
    rewrite E1 in E1'. injection E1' as <-. rewrite E2 in E2'. injection E2' as <-.
    assert (H0 : forall x, has_word (T_init (A:=A)) (fun _ => []) x <-> x = []).
    { intros x. unfold has_word. split; [intros (v & _ & <-); reflexivity|]. intros ->. exists 0. split; [left; reflexivity|reflexivity]. }
    assert (A1 : forall u, A_accepts t1 u = true <-> In u ws1) by (intros u; rewrite L1, T_init_accepts; intuition discriminate).
    assert (A2 : forall u, A_accepts t2 u = true <-> In u ws2) by (intros u; rewrite L2, T_init_accepts; intuition discriminate).
    pose proof (matching_run t1 t2 w1 w2 ord fuel S1 S2 OV L P NP) as M. cbv zeta in M.
    do 4 eexists. split; [apply M|].
    - intros u. rewrite HP, H1, H2, !H0. split.
      + intros [->|(w & [I|I] & X)]; [auto| |]; [left|right]; right; exists w; auto.
      + intros [[->|(w & I & X)]|[->|(w & I & X)]]; auto; right; exists w; auto.
    - clear M. cbv zeta.
      assert (K : forall b1 b2 : bool, exists K, NoDup K /\ length K = length (filter (fun u => eqb (A_accepts t1 u) b1 && eqb (A_accepts t2 u) b2) P) /\
        forall u, In u K <-> In u P /\ (if b1 then In u ws1 else ~ In u ws1) /\ (if b2 then In u ws2 else ~ In u ws2)).
      { intros b1 b2. eexists. split; [apply NoDup_filter; exact NP|]. split; [reflexivity|]. intros u. rewrite filter_In.
        pose proof (A1 u) as X. pose proof (A2 u) as Y. rewrite andb_true_iff.
        destruct (A_accepts t1 u), (A_accepts t2 u), b1, b2; cbn; intuition discriminate. }
      split; [apply K|split; [apply K|split; apply K]].
  Qed.
End T.

(** ** Refutations *)
(** "aba" is accepted by both automata but not by the result; and the result for {""} and {""} is empty. *)
Theorem C44_deterministic_intersection_refuted : exists (ops1 ops2 : list (aop nat)) w,
  let g1 := fst (runs A_call (A_init 2) ops1) in
  let g2 := fst (runs A_call (A_init 4) ops2) in
  A_accepts g1 w = true /\ A_accepts g2 w = true /\
  match deterministic_intersection g1 g2 id_order 100 with
  | Some (g12, Ok _) => A_accepts g12 w = false
  | _ => False
  end.
Proof.
  exists [AAddEdge 0 1 1; AAddEdge 1 0 2; ASetFinal 1 true],
         [AAddEdge 0 1 1; AAddEdge 1 2 2; AAddEdge 2 3 1; ASetFinal 3 true], [1; 2; 1].
  vm_compute. auto.
Qed.
Theorem C44_empty_word_refuted : exists (ops1 ops2 : list (aop nat)),
  let g1 := fst (runs A_call (A_init 1) ops1) in
  let g2 := fst (runs A_call (A_init 1) ops2) in
  A_accepts g1 [] = true /\ A_accepts g2 [] = true /\
  match deterministic_intersection g1 g2 id_order 100 with
  | Some (g12, Ok _) => A_accepts g12 [] = false
  | _ => False
  end.
Proof. exists [ASetFinal 0 true], [ASetFinal 0 true]. vm_compute. auto. Qed.
Theorem C45_deterministic_union_refuted : exists (ops1 ops2 : list (aop nat)) w w',
  let g1 := fst (runs A_call (A_init 1) ops1) in
  let g2 := fst (runs A_call (A_init 4) ops2) in
  A_accepts g2 w = true /\ A_accepts g1 w' = false /\ A_accepts g2 w' = false /\
  match deterministic_union g1 g2 id_order 100 with
  | Some (g12, Ok _) => A_accepts g12 w = false /\ A_accepts g12 w' = true
  | _ => False
  end.
Proof.
  exists [AAddEdge 0 0 2], [AAddEdge 0 1 2; AAddEdge 1 2 2; AAddEdge 2 2 2; AAddEdge 1 3 3; AAddEdge 2 3 4; ASetFinal 3 true],
    [2; 3], [4]. vm_compute. auto.
Qed.
Theorem C45_empty_word_refuted : exists (ops1 ops2 : list (aop nat)),
  let g1 := fst (runs A_call (A_init 1) ops1) in
  let g2 := fst (runs A_call (A_init 1) ops2) in
  A_accepts g1 [] = true /\ A_accepts g2 [] = true /\
  match deterministic_union g1 g2 id_order 100 with
  | Some (g12, Ok _) => A_accepts g12 [] = false
  | _ => False
  end.
Proof. exists [ASetFinal 0 true], [ASetFinal 0 true]. vm_compute. auto. Qed.

(** ** Concrete cases *)
Lemma id_order_valid {X} : valid_order (@id_order X).
Proof. intros n l. apply Permutation_refl. Qed.
Example ex_C18 : (* {"a","abc"} + {"", "b", "abd"} with the symbols in reverse order *)
  let t1 := fst (T_inserts T_init [[1]; [1; 2; 3]]) in
  let t2 := fst (T_inserts T_init [[]; [2]; [1; 2; 4]]) in
  match T_fusion t2 (fun _ l => rev l) 100 t1 with
  | Some (t, Ok _) => map (A_accepts t) [[]; [1]; [2]; [1; 2]; [1; 2; 3]; [1; 2; 4]; [2; 4]] = [true; true; true; false; true; true; false]
  | _ => False
  end.
Proof. vm_compute. reflexivity. Qed.
Example ex_C18_is_trie : is_trie (fst (T_inserts T_init [[1]; [1; 2; 3]])).
Proof.
  apply (is_trie_word (fst (T_insert T_init [1])) _ [1; 2; 3]); [|vm_compute; reflexivity].
  apply (is_trie_word T_init _ [1]); [constructor|vm_compute; reflexivity].
Qed.
Example ex_C43 :
  let a_star := fst (runs A_call (A_init 1) [AAddEdge 0 0 1; ASetFinal 0 true]) in
  let aa_star := fst (runs A_call (A_init 2) [AAddEdge 0 1 1; AAddEdge 1 0 1; ASetFinal 0 true]) in
  let b := fst (runs A_call (A_init 2) [AAddEdge 0 1 2; ASetFinal 1 true]) in
  (deterministic_inclusion a_star aa_star id_order 100, deterministic_inclusion aa_star a_star id_order 100,
   deterministic_inclusion a_star a_star id_order 100, deterministic_inclusion a_star b id_order 100) =
  (Some (Some (-1)%Z), Some (Some 1%Z), Some (Some 0%Z), Some None).
Proof. vm_compute. reflexivity. Qed.
Example ex_C44 : (* the hypotheses hold on a.b* and a.b : no word comes back to state 0 *)
  let g1 := fst (runs A_call (A_init 2) [AAddEdge 0 1 1; AAddEdge 1 1 2; ASetFinal 1 true]) in
  let g2 := fst (runs A_call (A_init 3) [AAddEdge 0 1 1; AAddEdge 1 2 2; ASetFinal 2 true]) in
  match deterministic_intersection g1 g2 id_order 100 with
  | Some (g12, Ok _) => map (A_accepts g12) [[1; 2]; [1]; []; [1; 2; 2]] = [true; false; false; false]
  | _ => False
  end /\
  (forall w q1 q2, A_delta_word g1 (A_initial g1) w = Some q1 -> A_delta_word g2 (A_initial g2) w = Some q2 ->
    (q1 = 0 \/ q2 = 0) -> A_initial g1 = Some q1 /\ A_initial g2 = Some q2).
Proof.
  split; [vm_compute; reflexivity|].
  set (g1 := fst (runs A_call (A_init 2) [AAddEdge 0 1 1; AAddEdge 1 1 2; ASetFinal 1 true])).
  set (g2 := fst (runs A_call (A_init 3) [AAddEdge 0 1 1; AAddEdge 1 2 2; ASetFinal 2 true])).
  assert (D1 : forall q a, A_delta g1 q a <> Some 0).
  { intros [|[|q]] [|[|[|a]]]; vm_compute; discriminate. }
  assert (D2 : forall q a, A_delta g2 q a <> Some 0).
  { intros [|[|[|q]]] [|[|[|a]]]; vm_compute; discriminate. }
  intros w. destruct w as [|a w _] using rev_ind.
  - intros q1 q2 E1 E2 _. auto.
  - intros q1 q2 E1 E2 H. exfalso. rewrite delta_word_snoc in E1, E2.
    destruct (A_delta_word g1 (A_initial g1) w) as [r1|]; [|discriminate].
    destruct (A_delta_word g2 (A_initial g2) w) as [r2|]; [|discriminate].
    destruct H as [-> | ->]; [apply (D1 _ _ E1)|apply (D2 _ _ E2)].
Qed.
Example ex_C45 : (* a | b.c : no word comes back to an initial state *)
  let g1 := fst (runs A_call (A_init 2) [AAddEdge 0 1 1; ASetFinal 1 true]) in
  let g2 := fst (runs A_call (A_init 3) [AAddEdge 0 1 2; AAddEdge 1 2 3; ASetFinal 2 true]) in
  match deterministic_union g1 g2 id_order 100 with
  | Some (g12, Ok _) => map (A_accepts g12) [[1]; [2; 3]; []; [2]; [1; 2]] = [true; true; false; false; false]
  | _ => False
  end /\
  (forall w, A_delta_word g1 (A_initial g1) w = A_initial g1 \/ A_delta_word g2 (A_initial g2) w = A_initial g2 ->
     A_delta_word g1 (A_initial g1) w = A_initial g1 /\ A_delta_word g2 (A_initial g2) w = A_initial g2).
Proof.
  split; [vm_compute; reflexivity|].
  set (g1 := fst (runs A_call (A_init 2) [AAddEdge 0 1 1; ASetFinal 1 true])).
  set (g2 := fst (runs A_call (A_init 3) [AAddEdge 0 1 2; AAddEdge 1 2 3; ASetFinal 2 true])).
  assert (D1 : forall q a, A_delta g1 q a <> Some 0).
  { intros [|[|q]] [|[|[|a]]]; vm_compute; discriminate. }
  assert (D2 : forall q a, A_delta g2 q a <> Some 0).
  { intros [|[|[|q]]] [|[|[|[|a]]]]; vm_compute; discriminate. }
  intros w. destruct w as [|a w _] using rev_ind; [auto|].
  rewrite !delta_word_snoc. change (A_initial g1) with (Some 0) at 2 4. change (A_initial g2) with (Some 0) at 2 4.
  intros H. exfalso. destruct H as [H|H].
  - destruct (A_delta_word g1 (A_initial g1) w) as [r|]; [apply (D1 _ _ H)|discriminate].
  - destruct (A_delta_word g2 (A_initial g2) w) as [r|]; [apply (D2 _ _ H)|discriminate].
Qed.
(** the exact languages on the automata of the refutations: "a" is read up to the pair (1, 1) and
    "aba" is lost because "ab" leads to the pair (0, 2); for the union, the result starts from the pair
    reached by [x] = "2", or by "22", since the loop on 2 comes back to the initial state of g1 *)
Example ex_C44_exact :
  let g1 := fst (runs A_call (A_init 2) [AAddEdge 0 1 1; AAddEdge 1 0 2; ASetFinal 1 true]) in
  let g2 := fst (runs A_call (A_init 4) [AAddEdge 0 1 1; AAddEdge 1 2 2; AAddEdge 2 3 1; ASetFinal 1 true; ASetFinal 3 true]) in
  A_delta_word g1 (A_initial g1) [1; 2] = Some 0 /\ A_delta_word g2 (A_initial g2) [1; 2] = Some 2 /\
  match deterministic_intersection g1 g2 id_order 100 with
  | Some (g12, Ok _) => map (A_accepts g12) [[1]; [1; 2]; [1; 2; 1]] = [true; false; false] /\
      map (fun w => A_accepts g1 w && A_accepts g2 w) [[1]; [1; 2]; [1; 2; 1]] = [true; false; true]
  | _ => False
  end.
Proof. vm_compute. auto. Qed.
(** set_initial(q, False) leaves no initial state (automaton.py:213-226) *)
Example ex_C44_no_initial :
  let g1 := fst (runs A_call (A_init 2) [AAddEdge 0 1 1; ASetInitial (Some 0) false]) in
  let g2 := fst (runs A_call (A_init 2) [AAddEdge 0 1 1; ASetFinal 1 true]) in
  A_initial g1 = None /\ A_delta_word g2 (A_initial g2) [1] = Some 1 /\
  deterministic_intersection g1 g2 id_order 2 = Some (A_init 0, Raise AttributeError) /\
  deterministic_intersection g2 g1 id_order 2 = Some (A_init 0, Raise AttributeError) /\
  deterministic_intersection g1 g1 id_order 2 = Some (A_init 0, Ok tt).
Proof. vm_compute. repeat split. Qed.
(** every pair is then made initial by deterministic_union: here the last one, so the word 1 is lost and
    the empty word is accepted *)
Example ex_C45_no_initial :
  let g1 := fst (runs A_call (A_init 2) [AAddEdge 0 1 1; ASetInitial (Some 0) false]) in
  let g2 := fst (runs A_call (A_init 2) [AAddEdge 0 1 1; ASetFinal 1 true]) in
  match deterministic_union g1 g2 id_order 10 with
  | Some (g12, Ok _) => map (A_accepts g12) [[1]; []] = [false; true] /\ map (A_accepts g2) [[1]; []] = [true; false]
  | _ => False
  end.
Proof. vm_compute. repeat split. Qed.
Example ex_C45_exact :
  let g1 := fst (runs A_call (A_init 1) [AAddEdge 0 0 2]) in
  let g2 := fst (runs A_call (A_init 4) [AAddEdge 0 1 2; AAddEdge 1 2 2; AAddEdge 2 2 2; AAddEdge 1 3 3; AAddEdge 2 3 4; ASetFinal 3 true]) in
  match deterministic_union g1 g2 id_order 100 with
  | Some (g12, Ok _) => forallb (fun w => eqb (A_accepts g12 w) (A_accepts g1 ([2; 2] ++ w) || A_accepts g2 ([2; 2] ++ w)))
      [[]; [2]; [3]; [4]; [2; 3]; [2; 4]; [2; 2; 4]] = true /\ A_accepts g12 [4] = true
  | _ => False
  end.
Proof. vm_compute. auto. Qed.
Example ex_C46 :
  let t1 := fst (T_inserts T_init [[1]; [1; 2; 3]]) in
  let t2 := fst (T_inserts T_init [[]; [1]; [1; 2; 4]]) in
  trie_matching t1 t2 id_order 100 = Some ([1; 1; 2; 1], Ok tt).
  (* none: ab ; first: abc ; second: "", abd ; both: a *)
Proof. vm_compute. reflexivity. Qed.

Print Assumptions C18_trie_fusion.
Print Assumptions C18_trie_fusion_words.
Print Assumptions C43_deterministic_inclusion.
Print Assumptions C44_deterministic_intersection_exact.
Print Assumptions C44_deterministic_intersection_partial.
Print Assumptions C44_deterministic_intersection_refuted.
Print Assumptions C44_empty_word_refuted.
Print Assumptions C44_no_initial.
Print Assumptions C45_deterministic_union_exact.
Print Assumptions C45_deterministic_union_partial.
Print Assumptions C45_deterministic_union_refuted.
Print Assumptions C45_empty_word_refuted.
Print Assumptions C46_trie_matching.
