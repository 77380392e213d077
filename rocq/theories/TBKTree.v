(** Theorems C60, C87 on BKTree. *)
From Coq Require Import String.
From Verif Require Import Str Graph Automaton SearchSpec BKTree BKSpec BKProofs BKProofs2 EditDistance EditSpec EditProofs Base BaseProofs.
Open Scope string_scope. Open Scope nat_scope. Open Scope list_scope.

(** make_bk_tree, then search: the answer is the nearest element. *)
Theorem C60_search {X} (distance : X -> X -> nat) (l : list X) (w : X) (d_max fuel : nat) : metric distance -> length l <= fuel ->
  exists t r, make_bk_tree distance fuel l = Some (t, Ok tt) /\ bk_search distance fuel t w d_max None = Some (Ok r) /\ nearest distance l w d_max r.
Proof.
  intros M L. destruct (inserts_spec distance M l [] bk_init) as (t & H1 & H2); [split; reflexivity|]. exists t. cbn [app] in H2.
  unfold bk_search, built in *. destruct (bk_root t) as [r|].
  - destruct H2 as (b & <- & R & O & _ & _ & E & S & _). destruct (search_spec distance M w t fuel [b] None d_max) as (wb & db & H3 & H4).
    { intros ? [<-|[]]. auto. } { unfold size_of. cbn. unfold sized. lia. }
    cbn [map] in H3. rewrite H3. cbn [flat_map] in H4. rewrite app_nil_r in H4. destruct H4 as [(-> & -> & H4)|(y & Iy & -> & -> & Ly & H4)].
    + exists None. split; [apply H1; cbn; lia|]. split; [reflexivity|]. intros y I. apply H4, E, I.
    + exists (Some (y, distance w y)). split; [apply H1; cbn; lia|]. split; [reflexivity|]. split; [apply E, Iy|]. split; [reflexivity|]. split; [exact Ly|]. intros z I. apply H4, E, I.
  - destruct H2 as [-> _]. exists None. split; [apply H1; cbn; lia|]. split; [reflexivity|]. intros y [].
Qed.

(** insert returns a vertex holding the element, whatever was inserted before. *)
Theorem C60_insert {X} (distance : X -> X -> nat) (l : list X) (w : X) (fuel : nat) : metric distance -> length l < fuel ->
  exists t t' u, make_bk_tree distance fuel l = Some (t, Ok tt) /\ bk_insert distance fuel t w None = Some (t', Ok u) /\
    dget (bk_element t') u = Some w /\ make_bk_tree distance fuel (l ++ [w]) = Some (t', Ok tt).
Proof.
  intros M L. destruct (inserts_spec distance M l [] bk_init) as (t & H1 & H2); [split; reflexivity|]. cbn [app length plus] in *.
  destruct (insert_spec distance M l t w H2) as (t' & u & H3 & H4 & H5). exists t, t', u. specialize (H1 fuel ltac:(lia)). specialize (H3 fuel L).
  split; [exact H1|]. split; [exact H3|]. split; [exact H5|].
  unfold make_bk_tree in *. clear -H1 H3. revert H1. generalize (@bk_init X) as g. induction l as [|x l IH]; intros g; cbn; [intros [= ->]; rewrite H3; reflexivity|].
  destruct (bk_insert distance fuel g x None) as [[g1 [v|e]]|]; [apply IH|discriminate|discriminate].
Qed.

(** With the Levenshtein distance, the default of BKTree. *)
Definition distance_of {A} {EA : EqDec A} (x y : list A) : nat := match levenshtein_distance x y with Some d => d | None => 0 end.
Theorem C60_levenshtein {A} {EA : EqDec A} (l : list (list A)) (w : list A) (d_max fuel : nat) : length l <= fuel ->
  exists t r, make_bk_tree distance_of fuel l = Some (t, Ok tt) /\ bk_search distance_of fuel t w d_max None = Some (Ok r) /\
    match r with
    | Some (x, n) => In x l /\ least edit w x n /\ n <= d_max /\ forall y m, In y l -> least edit w y m -> n <= m
    | None => forall y m, In y l -> least edit w y m -> d_max < m
    end.
Proof.
  intros L. assert (E : forall x y : list A, distance_of x y = lev x y) by (intros; unfold distance_of; rewrite levenshtein_eq; reflexivity).
  assert (U : forall (x y : list A) m, least edit x y m -> m = lev x y).
  { intros x y m [W1 W2]. destruct (lev_spec x y) as [V1 V2]. specialize (W2 _ V1). specialize (V2 _ W1). lia. }
  destruct (C60_search distance_of l w d_max fuel) as (t & r & H1 & H2 & H3); [|exact L|].
  - destruct (lev_metric (A := A)) as (S1 & S2 & S3). split; [intros x y; rewrite E; apply S1|]. split; [intros x y; rewrite !E; apply S2|intros x y z; rewrite !E; apply S3].
  - exists t, r. split; [exact H1|]. split; [exact H2|]. destruct r as [[x n]|]; cbn in H3.
    + destruct H3 as (I & -> & L1 & L2). rewrite E in *. split; [exact I|]. split; [apply lev_spec|]. split; [exact L1|]. intros y m Iy LE. rewrite (U _ _ _ LE), <- (E w y). apply L2, Iy.
    + intros y m Iy LE. rewrite (U _ _ _ LE), <- E. apply H3, Iy.
Qed.

(** The hypothesis that the distance is a metric matters: with damerau_levenshtein_distance, search misses a word within d_max. *)
Definition damerau_of (x y : str) : nat := match damerau_levenshtein_distance x y with Some d => d | None => 0 end.
Theorem C60_damerau : exists (l : list str) w d_max t x, make_bk_tree damerau_of 10 l = Some (t, Ok tt) /\
  In x l /\ damerau_of w x <= d_max /\ bk_search damerau_of 10 t w d_max None = Some (Ok None).
Proof.
  set (l := [lit "ABC"; lit "AC"]).
  exists l, (lit "CA"), 1, (match make_bk_tree damerau_of 10 l with Some (t, _) => t | None => bk_init end), (lit "AC").
  split; [vm_compute; reflexivity|]. split; [cbn; auto|]. split; [vm_compute; lia|vm_compute; reflexivity].
Qed.

(** C87: search from a node returns the nearest of the elements under this node. *)
Theorem C87_search_from {X} (distance : X -> X -> nat) (l : list X) (t : bktree X) (r : nat) (w : X) (d_max fuel : nat) : metric distance -> length l <= fuel ->
  make_bk_tree distance fuel l = Some (t, Ok tt) -> dget (bk_element t) r <> None ->
  exists res, bk_search distance fuel t w d_max (Some r) = Some (Ok res) /\ nearest_of distance (below t r) w d_max res.
Proof.
  intros M L MK Er. destruct (inserts_spec distance M l [] bk_init) as (t' & H1 & H2); [split; reflexivity|]. specialize (H1 fuel L). unfold make_bk_tree in MK. rewrite MK in H1. injection H1 as <-. cbn [app] in H2.
  unfold bk_search, built in *. destruct (bk_root t) as [root|]; [|destruct H2 as [_ ->]; destruct (Er eq_refl)].
  destruct H2 as (b & <- & R & O & _ & _ & E & S & K). destruct (sub_at b r (K r Er)) as (s & SB & <-). destruct (sub_facts distance t s b SB R O) as (R' & O' & LS).
  destruct (search_spec distance M w t fuel [s] None d_max) as (wb & db & H3 & H4).
  { intros ? [<-|[]]. auto. } { unfold size_of. cbn. unfold sized in *. lia. }
  cbn [map] in H3. rewrite H3. cbn [flat_map] in H4. rewrite app_nil_r in H4. pose proof (below_elems distance t s R' O') as BE. destruct H4 as [(-> & -> & H4)|(y & Iy & -> & -> & Ly & H4)].
  - exists None. split; [reflexivity|]. intros y I. apply H4, BE, I.
  - exists (Some (y, distance w y)). split; [reflexivity|]. split; [apply BE, Iy|]. split; [reflexivity|]. split; [exact Ly|]. intros z I. apply H4, BE, I.
Qed.

(** the invariant of BK-trees: the elements under an edge labelled d are at distance d of the element above *)
Theorem C87_invariant {X} (distance : X -> X -> nat) (l : list X) (t : bktree X) (fuel : nat) : metric distance -> length l <= fuel ->
  make_bk_tree distance fuel l = Some (t, Ok tt) ->
  (forall x, In x l <-> exists root, bk_root t = Some root /\ below t root x) /\
  (forall u x d v y, dget (bk_element t) u = Some x -> A_delta (bk_aut t) u d = Some v -> below t v y -> distance y x = d).
Proof.
  intros M L MK. destruct (inserts_spec distance M l [] bk_init) as (t' & H1 & H2); [split; reflexivity|]. specialize (H1 fuel L). unfold make_bk_tree in MK. rewrite MK in H1. injection H1 as <-. cbn [app] in H2.
  unfold built in *. destruct (bk_root t) as [root|].
  - destruct H2 as (b & <- & R & O & _ & _ & E & S & K). split.
    + intros x. rewrite <- E, <- (below_elems distance t b R O). split; [intros H; exists (bid b); auto|intros (? & [= <-] & H); exact H].
    + intros u x d v y Eu D B. destruct (sub_at b u) as (s & SB & Es); [apply K; congruence|]. destruct (sub_facts distance t s b SB R O) as (R' & O' & _).
      destruct s as [u' x' ch]. cbn in Es. subst u'. inversion R' as [? ? ? R1 R2 R3]; subst. inversion O' as [? ? ? O1 O2]; subst.
      unfold A_delta in D. rewrite R2, dget_labels in D. destruct (dget ch d) as [c|] eqn:G; [|discriminate]. injection D as <-. apply dget_In in G. destruct (O2 d c G) as [O3 O4].
      replace x with x' by congruence. apply O3. apply (below_elems distance t c (R3 d c G) O4), B.
  - destruct H2 as [-> ->]. split; [|discriminate]. intros x. split; [intros []|intros (? & [=] & _)].
Qed.

(** insert from a node which is on the way of the element is insert from the root. *)
Theorem C87_insert_on_way {X} (distance : X -> X -> nat) (l : list X) (t : bktree X) (root u : nat) (w : X) (fuel : nat) : metric distance -> length l < fuel ->
  make_bk_tree distance fuel l = Some (t, Ok tt) -> bk_root t = Some root -> steps (on_way distance t w) root u ->
  bk_insert distance fuel t w (Some u) = bk_insert distance fuel t w None.
Proof.
  intros M L MK RT S. destruct (C60_insert distance l w fuel M L) as (t1 & t2 & v & H1 & H2 & _). rewrite MK in H1. injection H1 as <-. rewrite H2.
  unfold bk_insert in *. rewrite RT in *. apply (descend_on_way distance t w root u S), H2.
Qed.
(** Exactly: from any node, the element is added under the root and no other node changes; afterwards search from the root never returns a worse
    element than the best of those inserted from the root; the new element is found at distance 0 when it was already there or when the node is on its way,
    and only then. *)
Theorem C87_insert_from {X} (distance : X -> X -> nat) (l : list X) (t : bktree X) (u : nat) (w : X) (fuel : nat) : metric distance -> length l < fuel ->
  make_bk_tree distance fuel l = Some (t, Ok tt) -> dget (bk_element t) u <> None ->
  exists t' v root, bk_root t = Some root /\ bk_root t' = Some root /\ bk_insert distance fuel t w (Some u) = Some (t', Ok v) /\ dget (bk_element t') v = Some w /\
    (forall i x, dget (bk_element t) i = Some x -> dget (bk_element t') i = Some x) /\
    (forall x, below t' root x <-> In x l \/ x = w) /\
    (forall w' d_max, exists r, bk_search distance fuel t' w' d_max None = Some (Ok r) /\
      match r with
      | Some (x, n) => (In x l \/ x = w) /\ n = distance w' x /\ n <= d_max /\ forall y, In y l -> n <= distance w' y
      | None => forall y, In y l -> d_max < distance w' y
      end) /\
    (bk_search distance fuel t' w 0 None = Some (Ok (Some (w, 0))) <-> In w l \/ steps (on_way distance t w) root u) /\
    (bk_search distance fuel t' w 0 None = Some (Ok None) <-> ~ In w l /\ ~ steps (on_way distance t w) root u).
Proof.
  intros M L MK Eu. destruct (inserts_spec distance M l [] bk_init) as (t0 & H1 & H2); [split; reflexivity|]. specialize (H1 fuel ltac:(cbn; lia)). unfold make_bk_tree in MK. rewrite MK in H1. injection H1 as <-. cbn [app] in H2.
  destruct (insert_from_spec distance M l t u w fuel H2 Eu L) as (t' & v & root & H3 & H4 & H5 & H6 & H7 & H8 & H9). exists t', v, root. do 6 (split; [assumption|]).
  split; [intros w' d_max; destruct (H9 w' d_max) as (r & R1 & R2 & _); exists r; auto|].
  destruct (H9 w 0) as (r & R1 & R2 & R3). specialize (R3 eq_refl eq_refl). rewrite R1. destruct r as [[x n]|].
  - assert (E : (x, n) = (w, 0)). { destruct R2 as (_ & -> & Z & _). assert (Z' : distance w x = 0) by lia. rewrite Z'. apply M in Z'. subst x. reflexivity. }
    rewrite E. split; split; intros HH; [apply R3; discriminate|reflexivity|discriminate|]. exfalso. assert (In w l \/ steps (on_way distance t w) root u) by (apply R3; discriminate). tauto.
  - split; split; intros HH; [discriminate|apply R3 in HH; destruct (HH eq_refl)| |reflexivity]. split; intros I; assert (HN : (None : option (X * nat)) <> None) by (apply R3; auto); apply HN; reflexivity.
Qed.
(** From another node, the tree is no longer a BK-tree: the inserted element is not found, even at distance 0. *)
Definition gap (x y : nat) : nat := (x - y) + (y - x).
Theorem C87_insert_from_refuted : exists (l : list nat) t u w t' v, metric gap /\ make_bk_tree gap 10 l = Some (t, Ok tt) /\ dget (bk_element t) u <> None /\
  bk_insert gap 10 t w (Some u) = Some (t', Ok v) /\ dget (bk_element t') v = Some w /\ bk_search gap 10 t' w 0 None = Some (Ok None).
Proof.
  exists [0; 5], (match make_bk_tree gap 10 [0; 5] with Some (t, _) => t | None => bk_init end), 1, 7,
    (match make_bk_tree gap 10 [0; 5] with Some (t, _) => match bk_insert gap 10 t 7 (Some 1) with Some (t', _) => t' | None => t end | None => bk_init end), 2.
  split; [|repeat split; try (vm_compute; reflexivity); vm_compute; discriminate]. unfold gap. split; [intros; lia|]. split; intros; lia.
Qed.
(** insert and search from a vertex that holds no element raise KeyError; insert has changed nothing by then. An empty tree never looks at the vertex. *)
Theorem C87_missing {X} (distance : X -> X -> nat) (t : bktree X) (u : nat) (w : X) (d_max fuel : nat) : 0 < fuel -> dget (bk_element t) u = None ->
  match bk_root t with
  | Some _ => bk_insert distance fuel t w (Some u) = Some (t, Raise KeyError) /\ bk_search distance fuel t w d_max (Some u) = Some (Raise KeyError)
  | None => bk_insert distance fuel t w (Some u) = bk_insert distance fuel t w None /\ bk_search distance fuel t w d_max (Some u) = Some (Ok None)
  end.
Proof.
  intros F E. destruct fuel as [|fuel]; [lia|]. unfold bk_insert, bk_search. destruct (bk_root t) as [root|]; [|split; reflexivity].
  cbn [bk_descend bk_search_loop]. rewrite E. split; reflexivity.
Qed.
Example C87_missing_example : exists t, make_bk_tree gap 10 [10; 14; 7] = Some (t, Ok tt) /\ bk_root t = Some 0 /\ dget (bk_element t) 3 = None.
Proof. vm_compute. eexists. repeat split. Qed.
Print Assumptions C87_missing.
Example C87_example : exists t, make_bk_tree gap 10 [10; 14; 7; 6; 13; 20] = Some (t, Ok tt) /\ bk_search gap 10 t 17 5 (Some 1) = Some (Ok (Some (14, 3))) /\
  dget (bk_element t) 1 = Some 14 /\ on_way gap t 6 0 1 /\ bk_insert gap 10 t 6 (Some 1) = Some (t, Ok 3).
Proof. eexists. split; [vm_compute; reflexivity|]. split; [vm_compute; reflexivity|]. split; [reflexivity|]. split; [exists 10; vm_compute; repeat split; discriminate|vm_compute; reflexivity]. Qed.

Definition C60_words : list str := [lit "book"; lit "books"; lit "cake"; lit "boo"; lit "cape"; lit "cart"; lit "boon"; lit "cook"].
Example C60_example : exists t, make_bk_tree distance_of 8 C60_words = Some (t, Ok tt) /\
  bk_search distance_of 8 t (lit "caqe") 10 None = Some (Ok (Some (lit "cape", 1))) /\ bk_search distance_of 8 t (lit "zzzzzz") 2 None = Some (Ok None).
Proof. eexists. split; [vm_compute; reflexivity|]. split; vm_compute; reflexivity. Qed.
Example C60_metric_example : metric (fun x y : nat => (x - y) + (y - x)).
Proof. split; [intros; lia|]. split; intros; lia. Qed.

Print Assumptions C60_search.
Print Assumptions C60_insert.
Print Assumptions C60_levenshtein.
Print Assumptions C60_damerau.
Print Assumptions C87_search_from.
Print Assumptions C87_invariant.
Print Assumptions C87_insert_on_way.
Print Assumptions C87_insert_from.
Print Assumptions C87_insert_from_refuted.
