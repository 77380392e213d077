(** Factors, suffix tries, digital sequences. *)
From Verif Require Import Base BaseProofs Graph GraphProofs Automaton AutomatonSpec AutomatonProofs Trie TrieSpec TrieProofs.
#[local] Arguments dkeys : simpl never.

Section P.
  Context {A : Type} {EA : EqDec A}.

  Lemma stop_le n i ml : stop n i ml <= n.
  Proof. destruct ml as [[|m]|]; cbn; lia. Qed.

  Lemma slice_occ (w : list A) i j : j <= length w -> i <= j -> occurs_at w (slice w i j) i /\ length (slice w i j) = j - i.
  Proof.
    intros L1 L2. unfold slice. split.
    - exists (firstn i w), (skipn (j - i) (skipn i w)). split.
      + rewrite firstn_skipn, firstn_skipn. reflexivity.
      + apply firstn_length_le. lia.
    - rewrite firstn_length_le; [reflexivity|]. rewrite skipn_length. lia.
  Qed.

  Lemma occ_slice (w u : list A) i : occurs_at w u i <-> u = slice w i (i + length u) /\ i + length u <= length w.
  Proof.
    unfold slice. replace (i + length u - i) with (length u) by lia. split.
    - intros (x & y & -> & <-). split.
      + rewrite skipn_app, Nat.sub_diag, skipn_all. cbn [app skipn].
        rewrite firstn_app, Nat.sub_diag, firstn_all. cbn [firstn]. rewrite app_nil_r. reflexivity.
      + rewrite !app_length. lia.
    - intros [E L]. exists (firstn i w), (skipn (length u) (skipn i w)). split.
      + rewrite E at 1. rewrite firstn_skipn, firstn_skipn. reflexivity.
      + apply firstn_length_le. lia.
  Qed.

  Lemma fits_stop (w u : list A) ml i : u <> [] -> i + length u <= length w ->
    (fits ml u <-> i + length u <= stop (length w) i ml).
  Proof. intros N L. destruct ml as [[|m]|]; cbn; try tauto. lia. Qed.

  Lemma firstn_slice (w : list A) i j k : k <= j - i -> firstn k (slice w i j) = slice w i (i + k).
  Proof.
    intros L. unfold slice. rewrite firstn_firstn. f_equal. lia.
  Qed.

  Lemma suffix_words (w : list A) ml x :
    (x = [] \/ exists i k, In i (seq 0 (length w)) /\ k <= length (slice w i (stop (length w) i ml)) /\
       x = firstn k (slice w i (stop (length w) i ml))) <-> factor w x /\ fits ml x.
  Proof.
    split.
    - intros [->|(i & k & I & L & ->)].
      + split; [exists [], w; reflexivity|]. destruct ml as [[|m]|]; cbn; auto; lia.
      + apply in_seq in I. assert (Le : i <= stop (length w) i ml) by (destruct ml as [[|m]|]; cbn; lia).
        pose proof (stop_le (length w) i ml) as Ls. destruct (slice_occ w i _ Ls Le) as [_ E].
        rewrite E in L. rewrite firstn_slice by lia.
        destruct (slice_occ w i (i + k)) as [O1 O2]; [lia|lia|]. split.
        * destruct O1 as (a & b & Ew & _). exists a, b. exact Ew.
        * destruct k as [|k]; [unfold slice; rewrite Nat.add_0_r, Nat.sub_diag; destruct ml as [[|m]|]; cbn; auto; lia|].
          apply (fits_stop w _ ml i); rewrite ?O2; try lia. intros X. rewrite X in O2. cbn in O2. lia.
    - intros [(a & b & E) F]. destruct x as [|c x]; [auto|]. right.
      assert (O : occurs_at w (c :: x) (length a)) by (exists a, b; auto).
      apply occ_slice in O. destruct O as [E1 L1]. set (u := c :: x) in *.
      assert (N : u <> []) by discriminate. apply (fits_stop w u ml _ N L1) in F.
      assert (Lu : 0 < length u) by (cbn; lia).
      exists (length a), (length u). pose proof (stop_le (length w) (length a) ml) as Ls.
      destruct (slice_occ w (length a) _ Ls) as [_ E2]; [lia|]. rewrite E2. split; [apply in_seq; lia|]. split; [lia|].
      rewrite firstn_slice by lia. exact E1.
  Qed.

  Lemma make_suffix_trie_spec (w : list A) ml : exists g word,
    make_suffix_trie w ml = (g, Ok tt) /\ shape g word /\ (forall x, A_is_final g x = true) /\
    forall u, A_accepts g u = true <-> factor w u /\ fits ml u.
  Proof.
    unfold make_suffix_trie.
    destruct (suffix_loop_spec w ml (seq 0 (length w)) ST_init (fun _ => []) (shape_ext_final _ _ _ shape_init))
      as (g & word & E & S & F & H). exists g, word. split; [exact E|]. split; [exact S|].
    assert (F1 : forall x, A_is_final g x = true) by (intros x; rewrite F; reflexivity). split; [exact F1|].
    intros u. rewrite (shape_accepts _ _ S), <- suffix_words.
    assert (X : (exists v, In v (A_vertices g) /\ word v = u /\ A_is_final g v = true) <-> has_word g word u).
    { unfold has_word. split; [intros (v & I & W & _)|intros (v & I & W)]; exists v; auto. }
    rewrite X, H. assert (Y : has_word ST_init (fun _ => []) u <-> u = []).
    { unfold has_word. split; [intros (v & _ & <-); reflexivity|intros ->; exists 0; split; [left|]; reflexivity]. }
    rewrite Y. reflexivity.
  Qed.

  (** ** factors *)
  Lemma filter_flat_map {X Y} (f : X -> list Y) p l : filter p (flat_map f l) = flat_map (fun x => filter p (f x)) l.
  Proof. induction l as [|x l IH]; cbn; [reflexivity|]. rewrite filter_app, IH. reflexivity. Qed.
  Lemma map_flat_map {X Y Z} (f : X -> list Y) (h : Y -> Z) l : map h (flat_map f l) = flat_map (fun x => map h (f x)) l.
  Proof. induction l as [|x l IH]; cbn; [reflexivity|]. rewrite map_app, IH. reflexivity. Qed.
  Lemma filter_none {X} (p : X -> bool) l : (forall x, In x l -> p x = false) -> filter p l = [].
  Proof. induction l as [|x l IH]; cbn; intros F; [reflexivity|]. rewrite F by auto. apply IH. auto. Qed.

  (** count of the words equal to [u] among the slices starting at [i] *)
  Lemma inner_count (w u : list A) i b : u <> [] -> i < length w -> b <= length w ->
    length (filter (fun x => eqb x u) (map (fun j => slice w i j) (seq (S i) (b - i)))) =
    if eqb (slice w i (i + length u)) u && (i + length u <=? b) then 1 else 0.
  Proof.
    intros N Li Lb.
    assert (G : forall n j0, i < j0 -> j0 + n <= length w + 1 ->
      length (filter (fun x => eqb x u) (map (fun j => slice w i j) (seq j0 n))) =
      if eqb (slice w i (i + length u)) u && ((j0 <=? i + length u) && (i + length u <? j0 + n)) then 1 else 0).
    { induction n as [|n IH]; intros j0 L1 L2; cbn [seq map filter length].
      - destruct (Nat.leb_spec j0 (i + length u)), (Nat.ltb_spec (i + length u) (j0 + 0)); cbn; try lia;
          destruct (eqb _ _); reflexivity.
      - specialize (IH (S j0) ltac:(lia) ltac:(lia)).
        destruct (slice_occ w i j0) as [_ Len]; [lia|lia|].
        destruct (eqb_spec (slice w i j0) u) as [E|NE]; cbn [length].
        + rewrite IH. rewrite E in Len.
          assert (X : j0 = i + length u) by lia. subst j0. rewrite E, eqb_refl. cbn [andb].
          destruct (Nat.leb_spec (S (i + length u)) (i + length u)); [lia|].
          rewrite Nat.leb_refl. destruct (Nat.ltb_spec (i + length u) (i + length u + S n)); [reflexivity|lia].
        + rewrite IH. destruct (eqb_spec (slice w i (i + length u)) u) as [E|]; [|reflexivity]. cbn [andb].
          destruct (Nat.eq_dec j0 (i + length u)) as [->|Nj]; [congruence|].
          destruct (Nat.leb_spec (S j0) (i + length u)), (Nat.leb_spec j0 (i + length u)),
            (Nat.ltb_spec (i + length u) (S j0 + n)), (Nat.ltb_spec (i + length u) (j0 + S n)); cbn; lia. }
    assert (Lu : 0 < length u) by (destruct u; [congruence|cbn; lia]).
    rewrite G by lia. destruct (eqb_spec (slice w i (i + length u)) u) as [E|]; [cbn [andb]|reflexivity].
    destruct (Nat.leb_spec (S i) (i + length u)), (Nat.leb_spec (i + length u) b), (Nat.ltb_spec (i + length u) (S i + (b - i)));
      cbn; lia.
  Qed.

  Definition count (u : list A) (l : list (list A)) : nat := length (filter (fun x => eqb x u) l).

  Definition positions (w u : list A) : list nat :=
    filter (fun i => eqb (slice w i (i + length u)) u && (i + length u <=? length w)) (seq 0 (length w)).

  Lemma positions_spec (w u : list A) : u <> [] -> NoDup (positions w u) /\ forall i, In i (positions w u) <-> occurs_at w u i.
  Proof.
    intros N. split; [apply NoDup_filter, seq_NoDup|].
    intros i. unfold positions. rewrite filter_In, in_seq, andb_true_iff, eqb_eq, Nat.leb_le, occ_slice.
    assert (0 < length u) by (destruct u; [congruence|cbn; lia]). split; [intros (_ & E & L); split; [symmetry|]; assumption|].
    intros [E L]. repeat split; auto; lia.
  Qed.

  Lemma sum_filter {X} (p : X -> bool) (f : X -> nat) l : (forall x, In x l -> f x = if p x then 1 else 0) ->
    list_sum (map f l) = length (filter p l).
  Proof.
    induction l as [|x l IH]; cbn [map filter]; intros F; [reflexivity|]. change (f x + list_sum (map f l) = length (if p x then x :: filter p l else filter p l)).
    rewrite IH by (intros; apply F; right; assumption). rewrite (F x) by (left; reflexivity). destruct (p x); reflexivity.
  Qed.
  Lemma length_flat_map {X Y} (f : X -> list Y) l : length (flat_map f l) = list_sum (map (fun x => length (f x)) l).
  Proof. induction l as [|x l IH]; cbn; [reflexivity|]. rewrite app_length, IH. reflexivity. Qed.

  Lemma factors_body (w : list A) ml : factors w ml =
    [] :: flat_map (fun i => map (fun j => slice w i j) (seq (S i) (stop (length w) i ml - i))) (seq 0 (length w)).
  Proof.
    unfold factors, slices. cbn [map]. unfold slice at 1. cbn. f_equal. rewrite map_flat_map. apply flat_map_ext.
    intros i. rewrite map_map. reflexivity.
  Qed.

  Lemma factors_count_nil (w : list A) ml : count [] (factors w ml) = 1.
  Proof.
    rewrite factors_body. unfold count. cbn [filter]. rewrite eqb_refl. cbn [length]. f_equal.
    rewrite filter_flat_map.
    rewrite (flat_map_ext _ (fun _ => [])).
    - induction (seq 0 (length w)); auto.
    - intros i. apply filter_none. intros x I. apply in_map_iff in I. destruct I as (j & <- & I). apply in_seq in I.
      pose proof (stop_le (length w) i ml) as Ls. destruct (slice_occ w i j) as [_ L]; [lia|lia|].
      destruct (eqb_spec (slice w i j) []) as [E|]; [|reflexivity]. rewrite E in L. cbn in L. lia.
  Qed.

  Lemma factors_count (w u : list A) ml : u <> [] ->
    count u (factors w ml) = if match ml with None | Some 0 => true | Some m => length u <=? m end
                             then length (positions w u) else 0.
  Proof.
    intros N. rewrite factors_body. unfold count. cbn [filter].
    destruct (eqb_spec [] u) as [E|_]; [congruence|].
    rewrite filter_flat_map, length_flat_map.
    assert (Lu : 0 < length u) by (destruct u; [congruence|cbn; lia]).
    rewrite (sum_filter (fun i => eqb (slice w i (i + length u)) u && (i + length u <=? stop (length w) i ml))).
    - unfold positions. destruct (match ml with None | Some 0 => true | Some m => length u <=? m end) eqn:Eb.
      + f_equal. apply filter_ext. intros i. f_equal. destruct ml as [[|m]|]; cbn; try reflexivity.
        apply Nat.leb_le in Eb. destruct (Nat.leb_spec (i + length u) (Nat.min (length w) (i + S m))),
          (Nat.leb_spec (i + length u) (length w)); try reflexivity; lia.
      + rewrite filter_none; [reflexivity|]. intros i _. destruct ml as [[|m]|]; try discriminate.
        apply Nat.leb_gt in Eb. apply andb_false_iff. right. apply Nat.leb_gt. cbn [stop]. lia.
    - intros i I. apply in_seq in I. apply inner_count; [exact N|lia|apply stop_le].
  Qed.

  (** ** Digital sequences *)
  Lemma DS_delta_word_spec (w : list A) u : forall q, q <= length w ->
    DS_delta_word w (Some q) u = Ok (if eqb (firstn (length u) (skipn q w)) u then Some (q + length u) else None).
  Proof.
    induction u as [|a u IH]; intros q L; cbn [DS_delta_word length firstn]; [rewrite eqb_refl, Nat.add_0_r; reflexivity|].
    unfold DS_delta, DS_is_final. destruct (Nat.eqb_spec q (length w)) as [->|Nq].
    - rewrite skipn_all. cbn [firstn]. destruct (eqb_spec [] (a :: u)); [discriminate|].
      destruct u; reflexivity.
    - unfold DS_nth. destruct (nth_error w q) as [b|] eqn:E; [|apply nth_error_None in E; lia].
      assert (X : skipn q w = b :: skipn (S q) w).
      { clear -E. revert w E. induction q as [|q IH]; intros [|c w] E; cbn in *; try discriminate; [congruence|].
        apply IH. exact E. }
      rewrite X. destruct (eqb_spec b a) as [->|Nb].
      + rewrite IH by lia. replace (q + 1) with (S q) by lia.
        destruct (eqb_spec (firstn (length u) (skipn (S q) w)) u) as [E1|N1], (eqb_spec (a :: firstn (length u) (skipn (S q) w)) (a :: u)) as [E2|N2];
          try congruence. f_equal. f_equal. lia.
      + destruct (eqb_spec (b :: firstn (length u) (skipn (S q) w)) (a :: u)) as [E2|N2]; [congruence|].
        destruct u; reflexivity.
  Qed.

  Lemma DS_accepts_spec (w u : list A) : DS_accepts w u = Ok (eqb u w).
  Proof.
    unfold DS_accepts, DS_initial. rewrite DS_delta_word_spec by lia. cbn [skipn plus].
    destruct (eqb_spec (firstn (length u) w) u) as [E|N].
    - unfold DS_is_final. f_equal. destruct (Nat.eqb_spec (length u) (length w)) as [L|L].
      + rewrite L, firstn_all in E. subst. symmetry. apply eqb_refl.
      + destruct (eqb_spec u w); [congruence|reflexivity].
    - f_equal. destruct (eqb_spec u w) as [->|]; [|reflexivity]. rewrite firstn_all in N. congruence.
  Qed.

  Lemma In_combine_seq (w : list A) q a : forall k, In (q, a) (combine (seq k (length w)) w) <-> k <= q /\ nth_error w (q - k) = Some a.
  Proof.
    induction w as [|b w IH]; intros k; cbn [length seq combine In].
    - split; [tauto|]. intros [_ X]. destruct (q - k); discriminate.
    - rewrite IH. split.
      + intros [X|[L E]]; [injection X as -> ->; rewrite Nat.sub_diag; auto|].
        replace (q - k) with (S (q - S k)) by lia. split; [lia|exact E].
      + intros [L E]. destruct (Nat.eq_dec k q) as [->|Nk]; [rewrite Nat.sub_diag in E; injection E as ->; auto|].
        right. replace (q - k) with (S (q - S k)) in E by lia. split; [lia|exact E].
  Qed.

  Lemma DS_edges_spec (w : list A) q r a : In (Edge q r a) (DS_edges w) <-> r = S q /\ nth_error w q = Some a.
  Proof.
    unfold DS_edges. rewrite in_map_iff. split.
    - intros ([x b] & E & I). injection E as <- <- <-. apply In_combine_seq in I. rewrite Nat.sub_0_r in I. split; [lia|tauto].
    - intros [-> E]. exists (q, a). split; [f_equal; lia|]. apply In_combine_seq. rewrite Nat.sub_0_r. split; [lia|exact E].
  Qed.

  Lemma DS_out_edges_spec (w : list A) q : q <= length w -> exists es, DS_out_edges w q = Ok es /\
    forall e, In e es <-> In e (DS_edges w) /\ source e = q.
  Proof.
    intros L. unfold DS_out_edges, DS_is_final, DS_nth. destruct (Nat.eqb_spec q (length w)) as [->|N].
    - exists []. split; [reflexivity|]. intros [x y a]. split; [intros []|]. rewrite DS_edges_spec. cbn.
      intros [[_ E] ->]. assert (length w < length w) by (apply nth_error_Some; congruence). lia.
    - destruct (nth_error w q) as [a|] eqn:E; [|apply nth_error_None in E; lia]. exists [Edge q (q + 1) a]. split; [reflexivity|].
      intros [x y b]. rewrite DS_edges_spec. cbn. split.
      + intros [X|[]]. injection X as <- <- <-. repeat split; [lia|exact E].
      + intros [[-> E1] ->]. left. rewrite E in E1. injection E1 as ->. f_equal. lia.
  Qed.

  Lemma DS_in_edges_spec (w : list A) q : q <= length w -> exists es, DS_in_edges w q = Ok es /\
    forall e, In e es <-> In e (DS_edges w) /\ target e = q.
  Proof.
    intros L. unfold DS_in_edges, DS_is_initial, DS_nth. destruct (Nat.eqb_spec q 0) as [->|N].
    - exists []. split; [reflexivity|]. intros [x y a]. split; [intros []|]. rewrite DS_edges_spec. cbn. intros [[-> _] X]. discriminate.
    - destruct (nth_error w (q - 1)) as [a|] eqn:E; [|apply nth_error_None in E; lia]. exists [Edge (q - 1) q a]. split; [reflexivity|].
      intros [x y b]. rewrite DS_edges_spec. cbn. split.
      + intros [X|[]]. injection X as <- <- <-. repeat split; [lia|exact E].
      + intros [[-> E1] <-]. left. replace (S x - 1) with x in * by lia. congruence.
  Qed.
End P.
