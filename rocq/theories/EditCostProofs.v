(** Proofs about the calls of the edit distances: the three functions are instances of one memoized recursion. *)
From Coq Require Import Lia.
From Verif Require Import EditDistance EditCost EditCostSpec EditSpec EditProofs Base BaseProofs.

Lemma computed_app l l' : computed (l ++ l') = computed l ++ computed l'.
Proof. unfold computed. rewrite filter_app, map_app. reflexivity. Qed.

(** ** One recursion for the three *)
Fixpoint seqc (f : nat -> nat -> mstate -> option (nat * mstate)) (l : list (nat * nat)) (s : mstate) : option (list nat * mstate) :=
  match l with
  | [] => Some ([], s)
  | (i, j) :: l' =>
      match f i j s with
      | None => None
      | Some (d, s) => match seqc f l' s with None => None | Some (ds, s) => Some (d :: ds, s) end
      end
  end.

Section Gen.
  Variables (next : nat -> nat -> list (nat * nat)) (comb : nat -> nat -> list nat -> nat).
  Fixpoint gen (fuel : nat) (i j : nat) (s : mstate) : option (nat * mstate) :=
    match fuel with
    | 0 => None
    | S fuel' =>
        match dget (fst s) (i, j) with
        | Some d => Some (d, enter i j true s)
        | None =>
            match seqc (gen fuel') (next i j) (enter i j false s) with
            | None => None
            | Some (ds, s) => Some (comb i j ds, (dset (fst s) (i, j) (comb i j ds), snd s))
            end
        end
    end.


  Lemma seqc_mono f f' l : (forall i j s r, f i j s = Some r -> f' i j s = Some r) -> forall s r, seqc f l s = Some r -> seqc f' l s = Some r.
  Proof.
    intros H. induction l as [|[i j] l IH]; intros s r E; [exact E|]. cbn [seqc] in *. destruct (f i j s) as [[d s1]|] eqn:E1; [|discriminate].
    rewrite (H _ _ _ _ E1). destruct (seqc f l s1) as [[ds s2]|] eqn:E2; [|discriminate]. rewrite (IH _ _ E2). exact E.
  Qed.
  Lemma gen_mono fuel : forall fuel' i j s r, fuel <= fuel' -> gen fuel i j s = Some r -> gen fuel' i j s = Some r.
  Proof.
    induction fuel as [|fuel IH]; intros fuel' i j s r L E; [discriminate|]. destruct fuel' as [|fuel']; [lia|]. cbn [gen] in *.
    destruct (dget (fst s) (i, j)); [exact E|]. destruct (seqc (gen fuel) (next i j) (enter i j false s)) as [[ds s1]|] eqn:E1; [|discriminate].
    rewrite (seqc_mono (gen fuel) (gen fuel') (next i j)) with (r := (ds, s1)); [exact E| |exact E1]. intros; apply IH; [lia|assumption].
  Qed.

  Variables (n m k : nat).
  Hypothesis next_in : forall i j i' j', i <= n -> j <= m -> In (i', j') (next i j) -> i <= i' <= n /\ j <= j' <= m /\ i + j < i' + j'.
  Hypothesis next_end : forall i j, n <= i \/ m <= j -> next i j = [].
  Hypothesis next_len : forall i j, length (next i j) <= k.

  (** what a successful call adds *)
  Definition grown (w : nat) (i0 j0 : nat) (s s' : mstate) (new : list (nat * nat)) : Prop :=
    computed (snd s') = computed (snd s) ++ new /\
    (forall p, In p (dkeys (fst s')) <-> In p (dkeys (fst s)) \/ In p new) /\
    NoDup new /\ (forall p, In p new -> ~ In p (dkeys (fst s))) /\
    (forall i j, In (i, j) new -> i0 <= i <= n /\ j0 <= j <= m) /\
    length (snd s') <= length (snd s) + w + k * length new.
  Definition closed (new : list (nat * nat)) (s' : mstate) : Prop :=
    forall i j i' j', In (i, j) new -> In (i', j') (next i j) -> In (i', j') (dkeys (fst s')).

  Lemma seqc_grown f l : forall i0 j0 (s : mstate) ds s',
    (forall i j (s : mstate) d s', In (i, j) l -> f i j s = Some (d, s') -> exists new, grown 1 i j s s' new /\ closed new s' /\ In (i, j) (dkeys (fst s'))) ->
    (forall i j, In (i, j) l -> i0 <= i /\ j0 <= j /\ i0 + j0 < i + j) -> i0 <= n -> j0 <= m ->
    seqc f l s = Some (ds, s') ->
    exists new, grown (length l) i0 j0 s s' new /\ closed new s' /\ (forall p, In p l -> In p (dkeys (fst s'))) /\ ~ In (i0, j0) new.
  Proof.
    induction l as [|[i j] l IH]; intros i0 j0 s ds s' HF HL B0 B1 E; cbn [seqc] in E.
    - injection E as <- <-. exists []. unfold grown, closed. rewrite app_nil_r. cbn. repeat split; intros; try tauto; try lia; try constructor.
    - destruct (f i j s) as [[d s1]|] eqn:E1; [|discriminate]. destruct (seqc f l s1) as [[ds2 s2]|] eqn:E2; [|discriminate]. injection E as <- <-.
      destruct (HF i j s d s1 (or_introl eq_refl) E1) as (n1 & (C1 & K1 & N1 & F1 & B1' & L1) & CL1 & I1).
      destruct (IH i0 j0 s1 ds2 s2) as (n2 & (C2 & K2 & N2 & F2 & B2 & L2) & CL2 & I2 & O2); try assumption.
      { intros; eapply HF; [right|]; eassumption. }
      { intros; apply HL. right. assumption. }
      destruct (HL i j (or_introl eq_refl)) as (Q1 & Q2 & Q3).
      exists (n1 ++ n2). unfold grown, closed. rewrite C2, C1, app_assoc. split; [split; [reflexivity|split; [|split; [|split; [|split]]]]|split; [|split]].
      + intros p. rewrite K2, K1, in_app_iff. tauto.
      + apply NoDup_app_intro; [exact N1|exact N2|]. intros p H1 H2. apply (F2 p H2). apply K1. right. exact H1.
      + intros p H. apply in_app_iff in H as [H|H]; [exact (F1 p H)|]. intros G. apply (F2 p H). apply K1. left. exact G.
      + intros a b H. apply in_app_iff in H as [H|H]; [|exact (B2 a b H)]. specialize (B1' a b H). lia.
      + rewrite app_length. cbn [length]. nia.
      + intros a b a' b' H HN. apply in_app_iff in H as [H|H]; [|exact (CL2 a b a' b' H HN)]. apply K2. left. exact (CL1 a b a' b' H HN).
      + intros p [<-|H]; [apply K2; left; exact I1|exact (I2 p H)].
      + intros H. apply in_app_iff in H as [H|H]; [|exact (O2 H)]. specialize (B1' _ _ H). lia.
  Qed.

  Lemma gen_grown fuel : forall i j s d s', i <= n -> j <= m -> gen fuel i j s = Some (d, s') ->
    exists new, grown 1 i j s s' new /\ closed new s' /\ In (i, j) (dkeys (fst s')).
  Proof.
    induction fuel as [|fuel IH]; intros i j s d s' Bi Bj E; [discriminate|]. cbn [gen] in E. destruct (dget (fst s) (i, j)) as [d0|] eqn:G.
    - injection E as <- <-. exists []. unfold grown, closed, enter. cbn [fst snd]. rewrite computed_app. cbn. rewrite app_length. cbn.
      repeat split; intros; try tauto; try lia; try constructor. apply dget_Some_key in G. exact G.
    - destruct (seqc (gen fuel) (next i j) (enter i j false s)) as [[ds s1]|] eqn:E1; [|discriminate]. injection E as <- <-.
      destruct (seqc_grown (gen fuel) (next i j) i j (enter i j false s) ds s1) as (new & (C & K & N & F & B & L) & CL & I & O); try assumption.
      { intros i' j' t d t' H. destruct (next_in i j i' j' Bi Bj H) as (?&?&?). apply IH; lia. }
      { intros i' j' H. destruct (next_in i j i' j' Bi Bj H) as (?&?&?). lia. }
      apply dget_None in G. unfold enter in C, K, F, L. cbn [fst snd] in C, K, F, L. rewrite computed_app in C. cbn in C. rewrite app_length in L. cbn [length] in L.
      pose proof (next_len i j) as NL.
      exists ((i, j) :: new). unfold grown, closed. cbn [fst snd]. split; [split; [|split; [|split; [|split; [|split]]]]|split].
      + rewrite C, <- app_assoc. reflexivity.
      + intros p. rewrite In_dkeys_dset, K. cbn [In]. split; intros [H|[H|H]]; auto.
      + constructor; assumption.
      + intros p [<-|H]; [exact G|exact (F p H)].
      + intros a b [H|H]; [injection H as <- <-; lia|exact (B a b H)].
      + cbn [length]. nia.
      + intros a b a' b' [H|H] HN; apply In_dkeys_dset; right.
        * injection H as <- <-. apply I. exact HN.
        * exact (CL a b a' b' H HN).
      + apply In_dkeys_dset. left. reflexivity.
  Qed.

  (** room for [n - i + (m - j)] nested calls suffices *)
  Lemma seqc_total f l : (forall i j s, In (i, j) l -> f i j s <> None) -> forall s, seqc f l s <> None.
  Proof.
    induction l as [|[i j] l IH]; intros H s; [discriminate|]. cbn [seqc]. destruct (f i j s) as [[d s1]|] eqn:E; [|exfalso; exact (H i j s (or_introl eq_refl) E)].
    destruct (seqc f l s1) as [[ds s2]|] eqn:E2; [discriminate|]. exfalso. revert E2. apply IH. intros; apply H. right. assumption.
  Qed.
  Lemma gen_total fuel : forall i j s, i <= n -> j <= m -> 1 <= fuel -> (n - i) + (m - j) <= fuel \/ n <= i \/ m <= j -> gen fuel i j s <> None.
  Proof.
    induction fuel as [|fuel IH]; intros i j s Bi Bj P B; [lia|]. cbn [gen]. destruct (dget (fst s) (i, j)); [discriminate|].
    destruct (seqc (gen fuel) (next i j) (enter i j false s)) as [[ds s1]|] eqn:E1; [discriminate|]. exfalso. revert E1. apply seqc_total.
    intros i' j' t H. destruct (Nat.le_gt_cases n i) as [Q|Q]; [rewrite next_end in H by lia; destruct H|].
    destruct (Nat.le_gt_cases m j) as [Q'|Q']; [rewrite next_end in H by lia; destruct H|].
    destruct (next_in i j i' j' Bi Bj H) as (?&?&?). apply IH; lia.
  Qed.

  (** and it is needed when every pair calls (i + 1, j) then (i, j + 1) *)
  Hypothesis next_two : forall i j, i < n -> j < m -> exists l, next i j = (i + 1, j) :: (i, j + 1) :: l.
  Lemma gen_end fuel i j (s : mstate) : n <= i \/ m <= j -> dget (fst s) (i, j) = None -> 1 <= fuel ->
    gen fuel i j s = Some (comb i j [], (dset (fst s) (i, j) (comb i j []), snd s ++ [(i, j, false)])).
  Proof. intros B G P. destruct fuel; [lia|]. cbn [gen]. rewrite G, next_end by exact B. reflexivity. Qed.
  Lemma gen_row fuel : forall j (s : mstate), 1 <= n -> j < m -> fuel < 1 + (m - j) -> (forall j', j <= j' <= m -> dget (fst s) (n - 1, j') = None) ->
    (forall j', j <= j' <= m -> dget (fst s) (n, j') = None) -> gen fuel (n - 1) j s = None.
  Proof.
    induction fuel as [|fuel IH]; intros j s P B L H1 H2; [reflexivity|]. cbn [gen]. rewrite H1 by lia.
    destruct (next_two (n - 1) j) as (l & ->); [lia|exact B|]. cbn [seqc]. replace (n - 1 + 1) with n by lia.
    destruct fuel as [|fuel]; [reflexivity|]. rewrite gen_end; [|lia|unfold enter; cbn; apply H2; lia|lia].
    rewrite IH; [reflexivity|exact P|lia|lia| |].
    - intros j' Q. unfold enter. cbn [fst snd]. rewrite dget_dset_other by (intros F; injection F; intros; lia). apply H1. lia.
    - intros j' Q. unfold enter. cbn [fst snd]. rewrite dget_dset_other by (intros F; injection F; intros; lia). apply H2. lia.
  Qed.
  Lemma gen_column fuel : forall i (s : mstate), i < n -> 1 <= m -> fuel < (n - i) + m -> (forall i' j, i <= i' <= n -> dget (fst s) (i', j) = None) ->
    gen fuel i 0 s = None.
  Proof.
    induction fuel as [|fuel IH]; intros i s B P L H; [reflexivity|]. destruct (Nat.eq_dec i (n - 1)) as [->|Q].
    - apply gen_row; try lia; intros; apply H; lia.
    - cbn [gen]. rewrite H by lia. destruct (next_two i 0) as (l & ->); [exact B|lia|]. cbn [seqc]. rewrite IH; [reflexivity|lia|exact P|lia|].
      intros i' j Q'. apply H. lia.
  Qed.
  Lemma gen_depth fuel : 1 <= n -> 1 <= m -> gen fuel 0 0 ([], []) = None <-> fuel < n + m.
  Proof.
    intros P Q. split.
    - intros E. destruct (Nat.lt_ge_cases fuel (n + m)) as [L|L]; [exact L|]. exfalso. revert E. apply gen_total; lia.
    - intros L. apply gen_column; try lia. reflexivity.
  Qed.

  (** every pair but possibly the last is computed *)
  Lemma all_computed new (s' : mstate) : 1 <= n -> 1 <= m -> (forall p, In p (dkeys (fst s')) <-> In p new) -> closed new s' -> In (0, 0) new ->
    forall i j, i <= n -> j <= m -> i < n \/ j < m -> In (i, j) new.
  Proof.
    intros Pn Pm K CL I0. assert (C0 : forall i, i < n -> In (i, 0) new).
    { induction i as [|i IH]; intros B; [exact I0|]. apply K. destruct (next_two i 0) as (l & E); [lia|exact Pm|].
      apply (CL i 0); [apply IH; lia|]. rewrite E. left. f_equal; lia. }
    assert (C1 : forall j i, i < n -> j <= m -> In (i, j) new).
    { induction j as [|j IH]; intros i B Q; [apply C0; lia|]. apply K. destruct (next_two i j) as (l & E); [lia|lia|].
      apply (CL i j); [apply IH; lia|]. rewrite E. right. left. f_equal; lia. }
    intros i j Bi Bj O1. destruct (Nat.lt_ge_cases i n) as [L|L]; [apply C1; lia|].
    assert (i = n) by lia. subst i. apply K. destruct (next_two (n - 1) j) as (l & E); [lia|lia|].
    apply (CL (n - 1) j); [apply C1; lia|]. rewrite E. left. f_equal; lia.
  Qed.
End Gen.

(** ** The three instances *)
Section Inst.
  Context {A : Type} {EA : EqDec A}.
  Variables x y : list A.
  Definition lev_next (i j : nat) : list (nat * nat) :=
    if negb (j <? length y) then [] else if negb (i <? length x) then [] else if same x y i j then [(i + 1, j + 1)]
    else [(i + 1, j); (i, j + 1); (i + 1, j + 1)].
  Definition lcs_next (i j : nat) : list (nat * nat) :=
    if negb (j <? length y) then [] else if negb (i <? length x) then [] else if same x y i j then [(i + 1, j + 1)]
    else [(i + 1, j); (i, j + 1)].
  Definition dam_next (i j : nat) : list (nat * nat) :=
    if negb (j <? length y) then [] else if negb (i <? length x) then [] else if same x y i j then [(i + 1, j + 1)]
    else [(i + 1, j); (i, j + 1); (i + 1, j + 1)] ++
      (if (i + 1 <? length x) && (j + 1 <? length y) && same x y i (j + 1) && same x y (i + 1) j then [(i + 2, j + 2)] else []).
  Definition ed_comb (i j : nat) (ds : list nat) : nat :=
    if negb (j <? length y) then length x - i else if negb (i <? length x) then length y - j
    else match ds with
         | [d] => d
         | [d1; d2] => 1 + Nat.min d1 d2
         | [d1; d2; d3] => 1 + Nat.min (Nat.min d1 d2) d3
         | [d1; d2; d3; d4] => 1 + Nat.min (Nat.min (Nat.min d1 d2) d3) d4
         | _ => 0
         end.

  Ltac step_call := match goal with |- context [match ?f ?a ?b ?c with _ => _ end] => destruct (f a b c) as [[? ?]|]; [|reflexivity] end.
  Lemma lev_gen fuel : forall i j s, lev_calls fuel x y i j s = gen lev_next ed_comb fuel i j s.
  Proof.
    induction fuel as [|fuel IH]; intros i j s; [reflexivity|]. cbn [lev_calls gen]. destruct (dget (fst s) (i, j)); [reflexivity|].
    set (G := gen lev_next ed_comb fuel) in *. clearbody G. unfold lev_next, ed_comb. destruct (negb (j <? length y)); [reflexivity|]. destruct (negb (i <? length x)); [reflexivity|].
    destruct (same x y i j); unfold cremember, cbind; cbn [seqc]; rewrite IH; repeat (step_call; rewrite ?IH); reflexivity.
  Qed.
  Lemma lcs_gen fuel : forall i j s, lcs_calls fuel x y i j s = gen lcs_next ed_comb fuel i j s.
  Proof.
    induction fuel as [|fuel IH]; intros i j s; [reflexivity|]. cbn [lcs_calls gen]. destruct (dget (fst s) (i, j)); [reflexivity|].
    set (G := gen lcs_next ed_comb fuel) in *. clearbody G. unfold lcs_next, ed_comb. destruct (negb (j <? length y)); [reflexivity|]. destruct (negb (i <? length x)); [reflexivity|].
    destruct (same x y i j); unfold cremember, cbind; cbn [seqc]; rewrite IH; repeat (step_call; rewrite ?IH); reflexivity.
  Qed.
  Lemma dam_gen fuel : forall i j s, dam_calls fuel x y i j s = gen dam_next ed_comb fuel i j s.
  Proof.
    induction fuel as [|fuel IH]; intros i j s; [reflexivity|]. cbn [dam_calls gen]. destruct (dget (fst s) (i, j)); [reflexivity|].
    set (G := gen dam_next ed_comb fuel) in *. clearbody G. unfold dam_next, ed_comb. destruct (negb (j <? length y)); [reflexivity|]. destruct (negb (i <? length x)); [reflexivity|].
    destruct (same x y i j); unfold cremember, cbind.
    - cbn [seqc]; rewrite IH; repeat (step_call; rewrite ?IH); reflexivity.
    - match goal with |- context [if ?b then [(_, _)] else []] => destruct b end; cbn [app seqc]; rewrite IH; repeat (step_call; rewrite ?IH); reflexivity.
  Qed.

  Definition forget (r : option (nat * mstate)) : memoized := match r with Some (d, s) => Some (d, fst s) | None => None end.
  Ltac erase IH := repeat (match goal with |- context [forget (cbind (?f ?a ?b ?c ?d ?e ?s) _)] =>
      let H := fresh in pose proof (IH d e s) as H; rewrite H; destruct (f a b c d e s) as [[? ?]|]; cbn [forget cbind mbind] end).
  Lemma lev_erase fuel : forall i j s, lev_compute fuel x y i j (fst s) = forget (lev_calls fuel x y i j s).
  Proof.
    induction fuel as [|fuel IH]; intros i j s; [reflexivity|]. cbn [lev_calls lev_compute]. destruct (dget (fst s) (i, j)) as [d|]; [reflexivity|].
    unfold cremember, remember. destruct (negb (j <? length y)); [reflexivity|]. destruct (negb (i <? length x)); [reflexivity|].
    change (fst s) with (fst (enter i j false s)). generalize (enter i j false s). clear s. intros s. destruct (same x y i j).
    - rewrite IH. destruct (lev_calls fuel x y (i + 1) (j + 1) s) as [[? ?]|]; reflexivity.
    - rewrite IH. destruct (lev_calls fuel x y (i + 1) j s) as [[? s1]|]; [|reflexivity]. cbn [forget mbind cbind].
      rewrite IH. destruct (lev_calls fuel x y i (j + 1) s1) as [[? s2]|]; [|reflexivity]. cbn [forget mbind cbind].
      rewrite IH. destruct (lev_calls fuel x y (i + 1) (j + 1) s2) as [[? s3]|]; reflexivity.
  Qed.
  Lemma lcs_erase fuel : forall i j s, lcs_compute fuel x y i j (fst s) = forget (lcs_calls fuel x y i j s).
  Proof.
    induction fuel as [|fuel IH]; intros i j s; [reflexivity|]. cbn [lcs_calls lcs_compute]. destruct (dget (fst s) (i, j)) as [d|]; [reflexivity|].
    unfold cremember, remember. destruct (negb (j <? length y)); [reflexivity|]. destruct (negb (i <? length x)); [reflexivity|].
    change (fst s) with (fst (enter i j false s)). generalize (enter i j false s). clear s. intros s. destruct (same x y i j).
    - rewrite IH. destruct (lcs_calls fuel x y (i + 1) (j + 1) s) as [[? ?]|]; reflexivity.
    - rewrite IH. destruct (lcs_calls fuel x y (i + 1) j s) as [[? s1]|]; [|reflexivity]. cbn [forget mbind cbind].
      rewrite IH. destruct (lcs_calls fuel x y i (j + 1) s1) as [[? s2]|]; reflexivity.
  Qed.
  Lemma dam_erase fuel : forall i j s, dam_compute fuel x y i j (fst s) = forget (dam_calls fuel x y i j s).
  Proof.
    induction fuel as [|fuel IH]; intros i j s; [reflexivity|]. cbn [dam_calls dam_compute]. destruct (dget (fst s) (i, j)) as [d|]; [reflexivity|].
    unfold cremember, remember. destruct (negb (j <? length y)); [reflexivity|]. destruct (negb (i <? length x)); [reflexivity|].
    change (fst s) with (fst (enter i j false s)). generalize (enter i j false s). clear s. intros s. destruct (same x y i j).
    - rewrite IH. destruct (dam_calls fuel x y (i + 1) (j + 1) s) as [[? ?]|]; reflexivity.
    - rewrite IH. destruct (dam_calls fuel x y (i + 1) j s) as [[? s1]|]; [|reflexivity]. cbn [forget mbind cbind].
      rewrite IH. destruct (dam_calls fuel x y i (j + 1) s1) as [[? s2]|]; [|reflexivity]. cbn [forget mbind cbind].
      rewrite IH. destruct (dam_calls fuel x y (i + 1) (j + 1) s2) as [[? s3]|]; [|reflexivity]. cbn [forget mbind cbind].
      match goal with |- context [if ?b then _ else _] => destruct b end; [|reflexivity].
      rewrite IH. destruct (dam_calls fuel x y (i + 2) (j + 2) s3) as [[? s4]|]; reflexivity.
  Qed.

  Definition stepping (next : nat -> nat -> list (nat * nat)) (k : nat) : Prop :=
    (forall i j i' j', i <= length x -> j <= length y -> In (i', j') (next i j) -> i <= i' <= length x /\ j <= j' <= length y /\ i + j < i' + j') /\
    (forall i j, length x <= i \/ length y <= j -> next i j = []) /\ (forall i j, length (next i j) <= k) /\
    (no_common x y -> forall i j, i < length x -> j < length y -> exists l, next i j = (i + 1, j) :: (i, j + 1) :: l).
  Lemma no_common_same i j : no_common x y -> same x y i j = false.
  Proof.
    intros N. unfold same. destruct (nth_error x i) as [a|] eqn:E1; [|reflexivity]. destruct (nth_error y j) as [b|] eqn:E2; [|reflexivity].
    apply eqb_neq. intros ->. apply (N b); eapply nth_error_In; eassumption.
  Qed.
  Ltac cases := repeat match goal with
    | |- context [negb (?a <? ?b)] => destruct (Nat.ltb_spec a b); cbn [negb]
    | |- context [same x y ?i ?j] => destruct (same x y i j)
    | |- context [if ?b then _ else _] => destruct b eqn:? end.
  Ltac stepping_tac f := split; [|split; [|split]];
    [intros i j i' j' Bi Bj; unfold f; cases; cbn [app In]; intros Q;
       repeat match goal with H : _ \/ _ |- _ => destruct H | H : False |- _ => destruct H | H : (_, _) = (_, _) |- _ => injection H; clear H; intros end; lia
    |intros i j B; unfold f; cases; try reflexivity; lia
    |intros i j; unfold f; cases; cbn; lia
    |intros N i j Bi Bj; unfold f; rewrite (no_common_same i j N); destruct (Nat.ltb_spec j (length y)); [|lia]; destruct (Nat.ltb_spec i (length x)); [|lia]; cbn [negb app]; eexists; reflexivity].
  Lemma lev_stepping : stepping lev_next 3. Proof. stepping_tac lev_next. Qed.
  Lemma lcs_stepping : stepping lcs_next 2. Proof. stepping_tac lcs_next. Qed.
  Lemma dam_stepping : stepping dam_next 4.
  Proof.
    split; [|split; [|split]].
    - intros i j i' j' Bi Bj. unfold dam_next. destruct (Nat.ltb_spec j (length y)); cbn [negb]; [|intros []].
      destruct (Nat.ltb_spec i (length x)); cbn [negb]; [|intros []]. destruct (same x y i j); [intros [[= <- <-]|[]]; lia|].
      rewrite in_app_iff. intros [[[= <- <-]|[[= <- <-]|[[= <- <-]|[]]]]|Q]; try lia.
      destruct ((i + 1 <? length x) && (j + 1 <? length y) && same x y i (j + 1) && same x y (i + 1) j) eqn:C; [|destruct Q].
      destruct Q as [[= <- <-]|[]]. rewrite !andb_true_iff, !Nat.ltb_lt in C. lia.
    - intros i j B. unfold dam_next. destruct (Nat.ltb_spec j (length y)); cbn [negb]; [|reflexivity]. destruct (Nat.ltb_spec i (length x)); cbn [negb]; [lia|reflexivity].
    - intros i j. unfold dam_next. cases; cbn; lia.
    - intros N i j Bi Bj. unfold dam_next. rewrite (no_common_same i j N). destruct (Nat.ltb_spec j (length y)); [|lia]. destruct (Nat.ltb_spec i (length x)); [|lia].
      cbn [negb app]. eexists. reflexivity.
  Qed.

  Definition pairs : list (nat * nat) := list_prod (seq 0 (S (length x))) (seq 0 (S (length y))).
  Lemma In_pairs i j : In (i, j) pairs <-> i <= length x /\ j <= length y.
  Proof. unfold pairs. rewrite in_prod_iff, !in_seq. lia. Qed.
  Lemma length_pairs : length pairs = (length x + 1) * (length y + 1).
  Proof. unfold pairs. rewrite prod_length, !seq_length. lia. Qed.
  Lemma NoDup_prod {B C} (l : list B) (l' : list C) : NoDup l -> NoDup l' -> NoDup (list_prod l l').
  Proof.
    intros N N'. induction N as [|a l NI N IH]; [constructor|]. cbn [list_prod]. apply NoDup_app_intro; [|exact IH|].
    - apply FinFun.Injective_map_NoDup; [intros b c [= H]; exact H|exact N'].
    - intros [b c] H1 H2. apply in_map_iff in H1 as (c' & [= -> ->] & _). apply in_prod_iff in H2. tauto.
  Qed.
  Lemma NoDup_pairs : NoDup pairs. Proof. apply NoDup_prod; apply seq_NoDup. Qed.

  Lemma gen_cost next k fuel : stepping next k -> 1 <= fuel -> length x + length y <= fuel ->
    exists d t l, gen next ed_comb fuel 0 0 ([], []) = Some (d, (t, l)) /\ NoDup (computed l) /\ incl (computed l) pairs /\ In (0, 0) (computed l) /\
      length l <= 1 + k * length (computed l) /\
      (no_common x y -> 1 <= length x -> 1 <= length y -> forall i j, i <= length x -> j <= length y -> i < length x \/ j < length y -> In (i, j) (computed l)).
  Proof.
    intros (S1 & S2 & S3 & S4) P L. destruct (gen next ed_comb fuel 0 0 ([], [])) as [[d [t l]]|] eqn:E.
    2: { exfalso. revert E. apply (gen_total next ed_comb (length x) (length y) S1 S2); try assumption; try lia; try (left; lia). }
    destruct (gen_grown next ed_comb (length x) (length y) k S1 S3 fuel 0 0 ([], []) d (t, l)) as (new & (C & K & N & F & B & LL) & CL & I); try lia; try exact E.
    cbn [fst snd app length Nat.add] in C, K, LL. change (computed [] ++ new) with new in C. rewrite <- C in *. clear new C. cbn [dkeys map In] in K. exists d, t, l.
    assert (K' : forall p, In p (dkeys (fst (t, l))) <-> In p (computed l)) by (intros p; rewrite K; tauto).
    split; [reflexivity|]. split; [exact N|]. split; [|split; [apply K'; exact I|split; [lia|]]].
    - intros [i j] H. apply In_pairs. specialize (B i j H). lia.
    - intros NC Px Py. apply (all_computed next (length x) (length y) (S4 NC) (computed l) (t, l) Px Py K' CL). apply K'. exact I.
  Qed.
  Lemma gen_stack next k fuel : stepping next k -> no_common x y -> 1 <= length x -> 1 <= length y ->
    gen next ed_comb fuel 0 0 ([], []) = None <-> fuel < length x + length y.
  Proof. intros (S1 & S2 & S3 & S4) NC Px Py. apply gen_depth; auto. Qed.
End Inst.
