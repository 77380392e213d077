(** Theorems C16, C17, C19, C20, C21: tries, suffix tries, factors, digital sequences. *)
From Verif Require Import Base BaseProofs Graph GraphProofs Automaton AutomatonSpec AutomatonProofs
  Trie TrieSpec TrieProofs TrieProofs2.

Section T.
  Context {A : Type} {EA : EqDec A}.

  (** C16: inserting any sequence of words in an empty Trie never raises, and the trie then accepts
      exactly the inserted words. *)
  Theorem C16_trie_insert (words : list (list A)) : exists g, T_inserts T_init words = (g, Ok tt) /\
    forall u, A_accepts g u = true <-> In u words.
  Proof.
    destruct (T_inserts_spec words _ _ shape_init T_init_final) as (g & word & E & S & F & L & _).
    exists g. split; [exact E|]. intros u. rewrite L, T_init_accepts. intuition discriminate.
  Qed.

  (** C17: num_edges() is the number of enumerated edges, and one less than the number of vertices. *)
  Theorem C17_trie_num_edges (words : list (list A)) g : T_inserts T_init words = (g, Ok tt) ->
    T_num_edges g = length (A_edges g) /\ length (A_edges g) + 1 = length (A_vertices g) /\
    A_num_vertices g = length (A_vertices g).
  Proof.
    intros E0. destruct (T_inserts_spec words _ _ shape_init T_init_final) as (g' & word & E & S & F & L & _).
    rewrite E in E0. injection E0 as ->. pose proof (shape_num_edges _ _ S) as N.
    assert (N0 : length (A_vertices g) <> 0).
    { pose proof (sh_root _ _ S) as I. destruct (A_vertices g); [destruct I|discriminate]. }
    assert (X : A_num_vertices g = length (A_vertices g)) by (unfold A_num_vertices, A_vertices, dkeys; reflexivity || (rewrite map_length; reflexivity)).
    split; [|split; [|exact X]].
    - unfold T_num_edges. rewrite X. destruct (Nat.eqb_spec (length (A_vertices g)) 0); [contradiction|]. symmetry. exact N.
    - rewrite N. lia.
  Qed.

  (** C19: a suffix trie accepts exactly the factors, within the length bound. *)
  Theorem C19_suffix_trie (w : list A) max_len : exists g, make_suffix_trie w max_len = (g, Ok tt) /\
    forall u, A_accepts g u = true <-> factor w u /\ fits max_len u.
  Proof.
    destruct (make_suffix_trie_spec w max_len) as (g & word & E & _ & _ & L). exists g. auto.
  Qed.

  (** C20: the empty word is listed once; any other word is listed once per occurrence when it fits
      the bound, and never otherwise. [P] lists the positions of the occurrences. *)
  Theorem C20_factors (w : list A) max_len :
    length (filter (fun x => eqb x []) (factors w max_len)) = 1 /\
    forall u, u <> [] -> exists P, NoDup P /\ (forall i, In i P <-> occurs_at w u i) /\
      (fits max_len u -> length (filter (fun x => eqb x u) (factors w max_len)) = length P) /\
      (~ fits max_len u -> length (filter (fun x => eqb x u) (factors w max_len)) = 0).
  Proof.
    split; [apply factors_count_nil|]. intros u N. exists (positions w u).
    destruct (positions_spec w u N) as [ND HP]. split; [exact ND|]. split; [exact HP|].
    pose proof (factors_count w u max_len N) as E. unfold count in E. rewrite E. unfold fits.
    destruct max_len as [[|m]|]; split; intros F; try reflexivity; try (exfalso; apply F; exact I).
    - destruct (Nat.leb_spec (length u) (S m)); [reflexivity|lia].
    - destruct (Nat.leb_spec (length u) (S m)); [contradiction|reflexivity].
  Qed.

  (** the listed words are exactly the factors within the bound *)
  Theorem C20_factors_set (w u : list A) max_len : In u (factors w max_len) <-> factor w u /\ fits max_len u.
  Proof.
    assert (X : In u (factors w max_len) <-> 0 < count u (factors w max_len)).
    { unfold count. split.
      - intros I. assert (J : In u (filter (fun x => eqb x u) (factors w max_len))) by (apply filter_In; split; [exact I|apply eqb_refl]).
        destruct (filter _ _); [destruct J|cbn; lia].
      - intros L. destruct (filter (fun x => eqb x u) (factors w max_len)) as [|x l] eqn:E; [cbn in L; lia|].
        assert (J : In x (filter (fun x => eqb x u) (factors w max_len))) by (rewrite E; left; reflexivity).
        apply filter_In in J. destruct J as [J K]. destruct (eqb_spec x u) as [->|]; [exact J|discriminate]. }
    rewrite X. destruct (C20_factors w max_len) as [C0 C1]. fold (count [] (factors w max_len)) in C0.
    destruct (eq_dec u []) as [->|N].
    - rewrite C0. split; [intros _|lia]. split; [exists [], w; reflexivity|]. destruct max_len as [[|m]|]; cbn; auto; lia.
    - destruct (C1 u N) as (P & ND & HP & F1 & F2). fold (count u (factors w max_len)) in F1, F2.
      assert (D : fits max_len u \/ ~ fits max_len u).
      { destruct max_len as [[|m]|]; cbn; auto. destruct (Nat.le_gt_cases (length u) (S m)); [left; assumption|right; lia]. }
      destruct D as [D|D]; [rewrite (F1 D)|rewrite (F2 D); split; [lia|tauto]].
      split.
      + intros L. split; [|exact D]. destruct P as [|i P]; [cbn in L; lia|].
        destruct (proj1 (HP i) (or_introl eq_refl)) as (x & y & E & _). exists x, y. exact E.
      + intros [(x & y & E) _]. assert (I : In (length x) P) by (apply HP; exists x, y; auto).
        destruct P; [destruct I|cbn; lia].
  Qed.

  (** C21: the digital sequence of [w]: language {w}, states 0..|w|, one transition per letter, and
      the two incidence enumerations agree with edges(). No query on these raises. *)
  Theorem C21_digital_sequence (w : list A) :
    (forall u, DS_accepts w u = Ok true <-> u = w) /\
    (forall u, DS_accepts w u = Ok true \/ DS_accepts w u = Ok false) /\
    NoDup (DS_vertices w) /\ (forall q, In q (DS_vertices w) <-> q <= length w) /\
    DS_num_vertices w = length (DS_vertices w) /\ DS_num_edges w = length (DS_edges w) /\
    (forall q r a, In (Edge q r a) (DS_edges w) <-> r = S q /\ nth_error w q = Some a) /\
    (forall q, q <= length w ->
       (exists es, DS_out_edges w q = Ok es /\ forall e, In e es <-> In e (DS_edges w) /\ source e = q) /\
       (exists es, DS_in_edges w q = Ok es /\ forall e, In e es <-> In e (DS_edges w) /\ target e = q) /\
       (forall a r, DS_delta w q a = Ok (Some r) <-> In (Edge q r a) (DS_edges w)) /\
       (exists s, DS_sigma w (Some q) = Ok s /\ forall a, In a s <-> exists r, In (Edge q r a) (DS_edges w))) /\
    (forall a, In a (DS_alphabet w) <-> exists q r, In (Edge q r a) (DS_edges w)).
  Proof.
    split; [|split; [|split; [|split; [|split; [|split; [|split; [|split]]]]]]].
    - intros u. rewrite DS_accepts_spec. destruct (eqb_spec u w); intuition congruence.
    - intros u. rewrite DS_accepts_spec. destruct (eqb u w); auto.
    - apply seq_NoDup.
    - intros q. unfold DS_vertices. rewrite in_seq. lia.
    - unfold DS_num_vertices, DS_vertices. rewrite seq_length. reflexivity.
    - unfold DS_num_edges, DS_edges. rewrite map_length, combine_length, seq_length. lia.
    - apply DS_edges_spec.
    - intros q L. split; [apply DS_out_edges_spec; exact L|]. split; [apply DS_in_edges_spec; exact L|]. split.
      + intros a r. rewrite DS_edges_spec. unfold DS_delta, DS_is_final, DS_nth.
        destruct (Nat.eqb_spec q (length w)) as [->|N].
        * split; [discriminate|]. intros [_ E]. assert (length w < length w) by (apply nth_error_Some; congruence). lia.
        * destruct (nth_error w q) as [b|] eqn:E; [|apply nth_error_None in E; lia].
          destruct (eqb_spec b a) as [->|Nb]; split; intros X; try discriminate.
          -- injection X as <-. split; [lia|reflexivity].
          -- destruct X as [-> _]. f_equal. f_equal. lia.
          -- destruct X as [_ X]. congruence.
      + unfold DS_sigma. destruct (DS_is_final w q) eqn:F; unfold DS_is_final in F.
        * exists []. split; [reflexivity|]. apply Nat.eqb_eq in F. intros a. split; [intros []|]. intros (r & I).
          apply DS_edges_spec in I. destruct I as [_ I]. assert (q < length w) by (apply nth_error_Some; congruence). lia.
        * apply Nat.eqb_neq in F. unfold DS_nth. destruct (nth_error w q) as [b|] eqn:E; [|apply nth_error_None in E; lia].
          exists [b]. split; [reflexivity|]. intros a. split.
          -- intros [<-|[]]. exists (S q). apply DS_edges_spec. auto.
          -- intros (r & I). apply DS_edges_spec in I. destruct I as [_ I]. left. congruence.
    - intros a. unfold DS_alphabet. rewrite In_sof. split.
      + intros I. apply In_nth_error in I. destruct I as (q & E). exists q, (S q). apply DS_edges_spec. auto.
      + intros (q & r & I). apply DS_edges_spec in I. apply nth_error_In with q. tauto.
  Qed.
  (** Beyond the last state, the queries raise IndexError. *)
  Theorem C21_out_of_range (w : list A) q a : length w < q ->
    DS_delta w q a = Raise IndexError /\ DS_out_edges w q = Raise IndexError /\ DS_in_edges w q = Raise IndexError /\ DS_sigma w (Some q) = Raise IndexError.
  Proof.
    intros L. assert (N : DS_nth w q = Raise IndexError) by (unfold DS_nth; rewrite (proj2 (nth_error_None w q)) by lia; reflexivity).
    assert (N1 : DS_nth w (q - 1) = Raise IndexError) by (unfold DS_nth; rewrite (proj2 (nth_error_None w (q - 1))) by lia; reflexivity).
    assert (F : DS_is_final w q = false) by (apply Nat.eqb_neq; lia). assert (I : DS_is_initial w q = false) by (apply Nat.eqb_neq; lia).
    unfold DS_delta, DS_out_edges, DS_in_edges, DS_sigma. rewrite F, I, N, N1. auto.
  Qed.
End T.

(** ** Concrete cases *)
Example ex_C16 : (* "ab", "a", "", "ab", "cb" *)
  let g := fst (T_inserts T_init [[1; 2]; [1]; []; [1; 2]; [3; 2]]) in
  (A_accepts g [1; 2], A_accepts g [1], A_accepts g [], A_accepts g [3; 2], A_accepts g [3], A_accepts g [2],
   T_num_edges g, length (A_edges g)) = (true, true, true, true, false, false, 4, 4).
Proof. vm_compute. reflexivity. Qed.
Example ex_C16_empty : A_accepts (fst (T_inserts (T_init (A:=nat)) [])) [] = false.
Proof. reflexivity. Qed.
Example ex_C17 : T_inserts T_init [[1; 2]; [1; 3]] = (fst (T_inserts T_init [[1; 2]; [1; 3]]), Ok tt).
Proof. vm_compute. reflexivity. Qed.
Example ex_C19 : (* the factors of "banana" *)
  let g := fst (make_suffix_trie [2; 1; 3; 1; 3; 1] (Some 3)) in
  (A_accepts g [1; 3; 1], A_accepts g [3; 1; 3; 1], A_accepts g [], A_accepts g [2; 3]) = (true, false, true, false).
Proof. vm_compute. reflexivity. Qed.
Example ex_C20 : factors [1; 2; 1] (Some 2) = [[]; [1]; [1; 2]; [2]; [2; 1]; [1]] /\ fits (Some 2) [2; 1] /\ factor [1; 2; 1] [2; 1].
Proof. split; [vm_compute; reflexivity|]. split; [cbn; lia|]. exists [1], []. reflexivity. Qed.
Example ex_C21 : DS_edges [7; 8] = [Edge 0 1 7; Edge 1 2 8] /\ DS_accepts [7; 8] [7] = Ok false /\ DS_accepts [7; 8] [7; 8] = Ok true.
Proof. vm_compute. auto. Qed.

Print Assumptions C16_trie_insert.
Print Assumptions C17_trie_num_edges.
Print Assumptions C19_suffix_trie.
Print Assumptions C20_factors.
Print Assumptions C20_factors_set.
Print Assumptions C21_digital_sequence.
Print Assumptions C21_out_of_range.
