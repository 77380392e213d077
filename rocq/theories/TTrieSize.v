(** Theorems C132: the states of a trie are the prefixes of its words, those of a suffix trie are the
    factors of its word. *)
From Verif Require Import Base BaseProofs Graph GraphProofs Automaton AutomatonSpec AutomatonProofs
  Trie TrieSpec TrieProofs TrieProofs2 PBFS PBFSProofs PBFSProofs2 PBFSProofs3 PBFSProofs4 TPBFS MinSpec TrieSizeSpec.
#[local] Arguments dkeys : simpl never.

Section T.
  Context {A : Type} {EA : EqDec A}.

  Lemma shape_tree g word (W : list A -> Prop) : shape g word -> (forall x, has_word g word x <-> W x) -> tree_of g W.
  Proof.
    intros S H. pose proof (shape_path _ _ S) as P. assert (ND : NoDup (A_vertices g)) by (destruct (sh_rep _ _ S) as (s & R); apply R).
    constructor; rewrite ?(sh_q0 _ _ S).
    - intros w. rewrite <- H. unfold has_word. split.
      + destruct (A_delta_word g (Some 0) w) as [v|] eqn:E; [|congruence]. intros _. apply P in E. exists v. exact E.
      + intros (v & Iv). apply P in Iv. congruence.
    - intros v. split; [intros I; exists (word v); apply P; auto|]. intros (w & E). apply P in E. tauto.
    - intros w w' v E E'. apply P in E, E'. destruct E as [_ <-], E' as [_ <-]. reflexivity.
    - intros L NL HL. rewrite <- (map_length word). apply Permutation_length, NoDup_Permutation; [|exact NL|].
      + apply NoDup_map_inj_in; [exact ND|]. intros u v Iu Iv. apply (shape_inj _ _ S); assumption.
      + intros x. rewrite HL, <- H, in_map_iff. unfold has_word. split; intros (v & X & Y); exists v; tauto.
  Qed.

  Lemma is_trie_tree g : is_trie g -> exists word, shape g word /\ (forall v, A_is_final g v = true -> In v (A_vertices g)) /\
    forall x, has_word g word x <-> prefixes_of (fun u => A_accepts g u = true) x.
  Proof.
    induction 1 as [|g g' w H (word & S & F & I) E|g1 g2 g' ord fuel H1 (w1 & S1 & F1 & I1) H2 (w2 & S2 & F2 & I2) OV E].
    - exists (fun _ => []). split; [apply shape_init|]. split; [apply T_init_final|]. intros x. unfold has_word, prefixes_of. split.
      + intros (v & _ & <-). left. reflexivity.
      + intros [->|(y & X & _)]; [exists 0; split; [left|]; reflexivity|]. rewrite T_init_accepts in X. discriminate.
    - destruct (T_insert_spec g word w S F) as (g'' & word' & E' & S' & F' & L & N). rewrite E in E'. injection E' as <-. exists word'.
      split; [exact S'|]. split; [exact F'|]. intros x. rewrite N, I. unfold prefixes_of. split.
      + intros [[X|(y & Ay & Py)]|X]; [auto| |]; right; [exists y|exists w]; rewrite L; auto.
      + intros [X|(y & Ay & Py)]; [auto|]. apply L in Ay. destruct Ay as [->|Ay]; [auto|]. left. right. exists y. auto.
    - destruct (fusion_run g1 g2 w1 w2 S1 S2 F1 ord OV (fuel + fusion_fuel g1 g2)) as (g'' & word' & E' & S' & F' & U & _ & N); [lia|].
      apply (fusion_mono _ _ _ _ (fuel + fusion_fuel g1 g2)) in E; [|lia]. rewrite E in E'. injection E' as <-. exists word'.
      split; [exact S'|]. split; [exact F'|]. intros x. rewrite N, I1, I2. unfold prefixes_of. split.
      + intros [[X|(y & Ay & Py)]|[X|(y & Ay & Py)]]; auto; right; exists y; rewrite U; auto.
      + intros [X|(y & Ay & Py)]; [auto|]. apply U in Ay. destruct Ay as [Ay|Ay]; [left|right]; right; exists y; auto.
  Qed.

  (** C132: in a trie obtained from Trie() by any insertions of words and of tries, the states are,
      one for one, the prefixes of the accepted words: no two states read the same word, and no state
      is of no use. *)
  Theorem C132_trie_states (t : aut A) : is_trie t -> tree_of t (prefixes_of (fun w => A_accepts t w = true)).
  Proof. intros H. destruct (is_trie_tree t H) as (word & S & _ & I). exact (shape_tree _ _ _ S I). Qed.

  (** the same from the list of the inserted words, with the bound on the number of states *)
  Lemma prefixes_bound (ws : list (list A)) : exists L, NoDup L /\
    (forall w, In w L <-> prefixes_of (fun u => In u ws) w) /\ length L <= S (length (concat ws)).
  Proof.
    induction ws as [|w ws (L & N & H & B)].
    - exists [[]]. split; [repeat constructor; intros []|]. split; [|cbn; lia]. intros w. unfold prefixes_of. cbn.
      split; [intros [<-|[]]; auto|]. intros [->|(x & [] & _)]; auto.
    - exists (sunion L (sof (map (fun k => firstn k w) (seq 1 (length w))))).
      assert (NS : NoDup (sof (map (fun k => firstn k w) (seq 1 (length w))))) by apply NoDup_sof.
      split; [apply NoDup_sunion; assumption|]. split.
      + intros x. rewrite In_sunion, H, In_sof, in_map_iff. unfold prefixes_of. split.
        * intros [[X|(y & I & P)]|(k & <- & I)]; [auto|right; exists y; cbn; auto|].
          right. exists w. split; [left; reflexivity|]. exists (skipn k w). symmetry. apply firstn_skipn.
        * intros [X|(y & [<-|I] & P)]; [auto| |left; right; exists y; auto].
          destruct P as (z & Ez). destruct x as [|b x]; [auto|]. right. exists (length (b :: x)).
          split; [rewrite Ez, firstn_app, Nat.sub_diag, firstn_all; cbn; rewrite app_nil_r; reflexivity|].
          apply in_seq. rewrite Ez, app_length. cbn. lia.
      + cbn [concat]. rewrite app_length.
        assert (B2 : length (sunion L (sof (map (fun k => firstn k w) (seq 1 (length w))))) <= length L + length w); [|lia].
        set (M := map (fun k => firstn k w) (seq 1 (length w))) in *.
        assert (LM : length M = length w) by (unfold M; rewrite map_length, seq_length; reflexivity). rewrite <- LM, <- app_length.
        apply NoDup_incl_length; [apply NoDup_sunion; assumption|]. intros x. rewrite In_sunion, In_sof, in_app_iff. tauto.
  Qed.

  Theorem C132_inserted_words (ws : list (list A)) : exists t, T_inserts T_init ws = (t, Ok tt) /\
    tree_of t (prefixes_of (fun w => In w ws)) /\ length (A_vertices t) <= 1 + length (concat ws).
  Proof.
    destruct (T_inserts_spec ws _ _ shape_init T_init_final) as (t & word & E & S & F & L & N). exists t. split; [exact E|].
    assert (T : tree_of t (prefixes_of (fun w => In w ws))).
    { apply (shape_tree _ _ _ S). intros x. rewrite N. unfold prefixes_of. apply or_iff_compat_r. unfold has_word. split.
      - intros (v & _ & <-). reflexivity.
      - intros ->. exists 0. split; [left|]; reflexivity. }
    split; [exact T|]. destruct (prefixes_bound ws) as (P & NP & HP & B). rewrite (tree_count _ _ T P NP HP). exact B.
  Qed.

  (** C132: the states of the suffix trie are the factors that fit the bound; there are at most
      [n * (n + 1) / 2 + 1] of them, and at most [n * m + 1] under a bound [m]. *)
  Lemma sum_desc n k : 2 * list_sum (map (fun i => n + k - i) (seq k n)) = n * (n + 1).
  Proof.
    revert k. induction n as [|n IH]; intros k; [reflexivity|]. cbn [seq map list_sum fold_right]. specialize (IH (S k)).
    rewrite Nat.mul_add_distr_l. rewrite (map_ext _ (fun i => n + S k - i)) by (intros; lia).
    change (fold_right Nat.add 0 ?l) with (list_sum l). rewrite IH. lia.
  Qed.
  Lemma length_flat_map_map {X Y} (f : nat -> list X) (h : nat -> X -> Y) l :
    length (flat_map (fun i => map (h i) (f i)) l) = list_sum (map (fun i => length (f i)) l).
  Proof. induction l as [|i l IH]; [reflexivity|]. cbn. rewrite app_length, map_length, IH. reflexivity. Qed.
  Lemma factors_length (w : list A) ml : 2 * length (factors w ml) <= length w * (length w + 1) + 2.
  Proof.
    rewrite factors_body. cbn [length]. rewrite length_flat_map_map.
    assert (B : list_sum (map (fun i => length (seq (S i) (stop (length w) i ml - i))) (seq 0 (length w))) <=
      list_sum (map (fun i => length w + 0 - i) (seq 0 (length w)))).
    { induction (seq 0 (length w)) as [|i l IH]; [cbn; lia|]. cbn [map list_sum fold_right]. rewrite seq_length.
      change (fold_right Nat.add 0 ?l) with (list_sum l). pose proof (stop_le (length w) i ml). lia. }
    pose proof (sum_desc (length w) 0). lia.
  Qed.
  Lemma factors_length_max (w : list A) m : length (factors w (Some (S m))) <= length w * S m + 1.
  Proof.
    rewrite factors_body. cbn [length]. rewrite length_flat_map_map.
    assert (B : forall l, list_sum (map (fun i => length (seq (S i) (stop (length w) i (Some (S m)) - i))) l) <= length l * S m).
    { induction l as [|i l IH]; [cbn; lia|]. cbn [map list_sum fold_right length]. rewrite seq_length.
      change (fold_right Nat.add 0 ?l) with (list_sum l). assert (stop (length w) i (Some (S m)) <= i + S m) by apply Nat.le_min_r. lia. }
    specialize (B (seq 0 (length w))). rewrite seq_length in B. lia.
  Qed.
  Lemma factors_In (w : list A) ml x : In x (factors w ml) <-> factor w x /\ fits ml x.
  Proof.
    rewrite <- suffix_words, factors_body. cbn [In]. rewrite in_flat_map. split.
    - intros [X|(i & I & J)]; [left; auto|]. apply in_map_iff in J. destruct J as (j & <- & J). apply in_seq in J.
      right. exists i, (j - i). split; [exact I|]. pose proof (stop_le (length w) i ml). apply in_seq in I.
      assert (Ls : length (slice w i (stop (length w) i ml)) = stop (length w) i ml - i).
      { unfold slice. rewrite firstn_length, skipn_length. lia. }
      rewrite Ls. split; [lia|]. unfold slice. rewrite firstn_firstn, Nat.min_l by lia. reflexivity.
    - intros [X|(i & k & I & Lk & ->)]; [left; auto|]. apply in_seq in I. pose proof (stop_le (length w) i ml).
      assert (Ls : length (slice w i (stop (length w) i ml)) = stop (length w) i ml - i).
      { unfold slice. rewrite firstn_length, skipn_length. lia. }
      rewrite Ls in Lk. destruct k as [|k]; [left; reflexivity|]. right. exists i. split; [apply in_seq; lia|].
      apply in_map_iff. exists (i + S k). split; [|apply in_seq; lia].
      unfold slice. rewrite firstn_firstn, Nat.min_l by lia. f_equal. lia.
  Qed.

  Theorem C132_suffix_trie_states (w : list A) max_len : exists g, make_suffix_trie w max_len = (g, Ok tt) /\
    tree_of g (fun u => factor w u /\ fits max_len u) /\
    2 * length (A_vertices g) <= length w * (length w + 1) + 2 /\
    (forall m, max_len = Some m -> 0 < m -> length (A_vertices g) <= length w * m + 1).
  Proof.
    destruct (make_suffix_trie_spec w max_len) as (g & word & E & S & F & L). exists g. split; [exact E|].
    assert (T : tree_of g (fun u => factor w u /\ fits max_len u)).
    { apply (shape_tree _ _ _ S). intros x. rewrite <- L, (shape_accepts _ _ S). unfold has_word.
      split; intros (v & X); exists v; [|tauto]. destruct X as [X Y]. auto. }
    split; [exact T|].
    assert (B : length (A_vertices g) <= length (factors w max_len)).
    { rewrite (tree_count _ _ T (nodup (list_eq_dec (fun x y => match eqb_spec x y with ReflectT _ e => left e | ReflectF _ n => right n end)) (factors w max_len))).
      - apply NoDup_incl_length; [apply NoDup_nodup|]. intros x. apply nodup_In.
      - apply NoDup_nodup.
      - intros x. rewrite nodup_In. apply factors_In. }
    split; [pose proof (factors_length w max_len); lia|]. intros m -> Hm. destruct m as [|m]; [lia|].
    pose proof (factors_length_max w m). lia.
  Qed.

  (** C132: two tries that accept the same words are the same up to the names of the states: neither the
      order of the insertions, nor their repetition, nor the use of insert on tries matter. *)
  Theorem C132_same_words_same_trie (t1 t2 : aut A) : is_trie t1 -> is_trie t2 ->
    (forall w, A_accepts t1 w = A_accepts t2 w) -> isomorphic (aut_dfa t1 0) (aut_dfa t2 0) /\
      A_initial t1 = Some 0 /\ A_initial t2 = Some 0.
  Proof.
    intros H1 H2 L. destruct (is_trie_tree t1 H1) as (w1 & S1 & F1 & I1), (is_trie_tree t2 H2) as (w2 & S2 & F2 & I2).
    split; [|split; [apply S1|apply S2]].
    assert (I : forall x, has_word t1 w1 x <-> has_word t2 w2 x).
    { intros x. rewrite I1, I2. unfold prefixes_of. apply or_iff_compat_l. split; intros (y & X & P); exists y; [rewrite <- L|rewrite L]; auto. }
    assert (FA : forall t w v, shape t w -> In v (A_vertices t) -> A_is_final t v = A_accepts t (w v)).
    { intros t w v S Iv. unfold A_accepts. rewrite (sh_q0 _ _ S), (proj2 (shape_path _ _ S (w v) v) (conj Iv eq_refl)). reflexivity. }
    set (f := fun q => match A_delta_word t2 (Some 0) (w1 q) with Some r => r | None => 0 end).
    assert (Hf : forall q, In q (A_vertices t1) -> In (f q) (A_vertices t2) /\ w2 (f q) = w1 q).
    { intros q Iq. destruct (proj1 (I (w1 q))) as (r & Ir & Er); [exists q; auto|]. unfold f.
      rewrite (proj2 (shape_path _ _ S2 (w1 q) r) (conj Ir Er)). auto. }
    assert (ED : forall t w p q a, shape t w -> In p (A_vertices t) -> In q (A_vertices t) ->
      (In (Edge p q a) (A_edges t) <-> w q = w p ++ [a])).
    { intros t w p q a S Ip Iq. destruct (sh_rep _ _ S) as (s & R). rewrite <- (obs_delta_edges _ _ R). split.
      - intros E. apply (sh_edge _ _ S _ _ _ E).
      - intros E. destruct (Nat.eq_dec q 0) as [->|N0]; [rewrite (sh_word0 _ _ S) in E; destruct (w p); discriminate|].
        destruct (sh_in _ _ S q Iq N0) as (p' & b & Ed). pose proof (sh_edge _ _ S _ _ _ Ed) as (Ip' & _ & _ & Wp).
        rewrite Wp in E. apply app_inj_tail in E. destruct E as [E ->]. rewrite <- (shape_inj _ _ S _ _ Ip' Ip E). exact Ed. }
    exists f. cbn [aut_dfa d_states d_trans d_init d_final].
    split; [intros q Iq; apply Hf, Iq|]. split; [|split; [|split; [|split]]].
    - intros r Ir. destruct (proj2 (I (w2 r))) as (q & Iq & Eq); [exists r; auto|]. exists q. split; [exact Iq|].
      apply (shape_inj _ _ S2); [apply Hf, Iq|exact Ir|]. rewrite <- Eq. apply Hf, Iq.
    - intros p q Ip Iq E. apply (shape_inj _ _ S1); try assumption. rewrite <- (proj2 (Hf p Ip)), <- (proj2 (Hf q Iq)), E. reflexivity.
    - unfold f. rewrite (sh_word0 _ _ S1). reflexivity.
    - intros q Iq. destruct (Hf q Iq) as [Ifq Wq]. rewrite (FA _ _ _ S1 Iq), (FA _ _ _ S2 Ifq), Wq. symmetry. apply L.
    - intros p q a Ip Iq. destruct (Hf p Ip) as [Ifp Wp], (Hf q Iq) as [Ifq Wq].
      rewrite (ED _ _ _ _ _ S1 Ip Iq), (ED _ _ _ _ _ S2 Ifp Ifq), Wp, Wq. reflexivity.
  Qed.
End T.

(** Two insertions that share a prefix, one of them a prefix of the other: the states are the six
    prefixes of 1.2, 1.2.3, 4.2 and the empty word. *)
Definition tsz_words : list (list nat) := [[1; 2]; [4; 2]; [1; 2; 3]].
Definition tsz : aut nat := fst (T_inserts T_init tsz_words).
Definition tsz_rev : aut nat := fst (T_inserts T_init (rev tsz_words ++ [[1; 2]])).
Lemma tsz_is_trie ws : is_trie (fst (T_inserts (@T_init nat) ws)).
Proof.
  enough (H : forall g, is_trie g -> snd (T_inserts g ws) = Ok tt -> is_trie (fst (T_inserts g ws))).
  { apply H; [constructor|]. destruct (C132_inserted_words ws) as (t & -> & _). reflexivity. }
  induction ws as [|w ws IH]; intros g Hg; [auto|]. unfold T_inserts. cbn [foreach].
  destruct (T_insert g w) as [g1 [[]|e]] eqn:E; [|discriminate]. apply IH. econstructor; [exact Hg|exact E].
Qed.
Example C132_trie_states_nontrivial :
  is_trie tsz /\ is_trie tsz_rev /\ length (A_vertices tsz) = 6 /\
  length (nodup (list_eq_dec Nat.eq_dec) (flat_map (fun w => map (fun k => firstn k w) (seq 0 (S (length w)))) tsz_words)) = 6 /\
  A_delta_word tsz (A_initial tsz) [1; 2; 3] = Some 5 /\ A_delta_word tsz (A_initial tsz) [2] = None.
Proof. split; [apply tsz_is_trie|]. split; [apply tsz_is_trie|]. vm_compute. repeat split. Qed.
(** Inserted in the other order, with a repetition, the states have other names. *)
Example C132_same_words_same_trie_nontrivial :
  isomorphic (aut_dfa tsz 0) (aut_dfa tsz_rev 0) /\
  A_delta_word tsz (A_initial tsz) [4] = Some 3 /\ A_delta_word tsz_rev (A_initial tsz_rev) [4] = Some 4.
Proof.
  split; [|vm_compute; split; reflexivity]. apply (C132_same_words_same_trie tsz tsz_rev); [apply tsz_is_trie|apply tsz_is_trie|].
  destruct (T_inserts_spec tsz_words _ _ shape_init T_init_final) as (t1 & x1 & E1 & _ & _ & L1 & _).
  destruct (T_inserts_spec (rev tsz_words ++ [[1; 2]]) _ _ shape_init T_init_final) as (t2 & x2 & E2 & _ & _ & L2 & _).
  intros w. unfold tsz, tsz_rev. rewrite E1, E2. cbn [fst]. specialize (L1 w). specialize (L2 w).
  rewrite T_init_accepts in L1, L2. unfold tsz_words in *. cbn [rev app In] in *.
  destruct (A_accepts t1 w), (A_accepts t2 w); intuition discriminate.
Qed.
(** The suffix trie of a.b.a has six states: the empty word, a, b, ab, ba, aba. *)
Example C132_suffix_trie_states_nontrivial :
  length (A_vertices (fst (make_suffix_trie [1; 2; 1] None))) = 6 /\
  length (A_vertices (fst (make_suffix_trie [1; 2; 3] None))) = 7 /\
  length (A_vertices (fst (make_suffix_trie [1; 2; 3] (Some 1)))) = 4.
Proof. vm_compute. repeat split. Qed.

Print Assumptions C132_trie_states.
Print Assumptions C132_inserted_words.
Print Assumptions C132_suffix_trie_states.
Print Assumptions C132_same_words_same_trie.
