(** Lemmas on BKTree. *)
From Verif Require Import Base Graph Automaton SearchSpec BKTree BKSpec BaseProofs.
#[local] Arguments dkeys : simpl never.

Section T.
  Context {X : Type}.
  Variable distance : X -> X -> nat.
  Hypothesis M : metric distance.

  (** the shape of the tree *)
  Inductive bt := BT (u : nat) (x : X) (ch : list (nat * bt)).
  Definition bid t := let '(BT u _ _) := t in u.
  Definition belt t := let '(BT _ x _) := t in x.
  Definition bch t := let '(BT _ _ ch) := t in ch.
  Fixpoint ids t : list nat := let '(BT u _ ch) := t in u :: flat_map (fun p => ids (snd p)) ch.
  Fixpoint elems t : list X := let '(BT _ x ch) := t in x :: flat_map (fun p => elems (snd p)) ch.

  Section Ind.
    Variable P : bt -> Prop.
    Hypothesis H : forall u x ch, (forall d c, In (d, c) ch -> P c) -> P (BT u x ch).
    Fixpoint bt_induction (t : bt) : P t :=
      match t with
      | BT u x ch => H u x ch ((fix go (l : list (nat * bt)) : forall d c, In (d, c) l -> P c :=
          match l with
          | [] => fun d c (I : In (d, c) []) => match I with end
          | (d0, c0) :: l' => fun d c I =>
              match I with
              | or_introl e => eq_ind (snd (d0, c0)) P (bt_induction c0) (snd (d, c)) (f_equal snd e)
              | or_intror I' => go l' d c I'
              end
          end) ch)
      end.
  End Ind.

  Definition labels (ch : list (nat * bt)) : dict nat nat := map (fun '(d, c) => (d, bid c)) ch.
  Inductive rep (g : bktree X) : bt -> Prop :=
  | rep_node u x ch : dget (bk_element g) u = Some x -> dget (au_adj (bk_aut g)) u = Some (labels ch) ->
      (forall d c, In (d, c) ch -> rep g c) -> rep g (BT u x ch).
  Inductive ok : bt -> Prop :=
  | ok_node u x ch : NoDup (dkeys ch) -> (forall d c, In (d, c) ch -> (forall y, In y (elems c) -> distance y x = d) /\ ok c) -> ok (BT u x ch).

  Lemma rep_frame g g' t : rep g t -> (forall u, In u (ids t) -> dget (au_adj (bk_aut g')) u = dget (au_adj (bk_aut g)) u /\ dget (bk_element g') u = dget (bk_element g) u) -> rep g' t.
  Proof.
    induction t as [u x ch IH] using bt_induction. intros R F. inversion R as [? ? ? R1 R2 R3]; subst. destruct (F u (or_introl eq_refl)) as [F1 F2].
    constructor; [congruence|congruence|]. intros d c I. apply (IH d c I (R3 d c I)). intros v Iv. apply F. right. apply in_flat_map. exists (d, c). auto.
  Qed.
  Lemma dget_labels ch d : dget (labels ch) d = option_map bid (dget ch d).
  Proof. induction ch as [|[d' c] ch IH]; [reflexivity|]. cbn. destruct (eqb_spec d d'); [reflexivity|exact IH]. Qed.
  Lemma labels_dset ch d c : labels (dset ch d c) = dset (labels ch) d (bid c).
  Proof. induction ch as [|[d' c'] ch IH]; [reflexivity|]. cbn. destruct (eqb_spec d d'); [reflexivity|]. cbn. f_equal. exact IH. Qed.
  Lemma labels_same ch d c c' : dget ch d = Some c -> bid c' = bid c -> labels (dset ch d c') = labels ch.
  Proof. intros G E. induction ch as [|[d' c0] ch IH]; [discriminate|]. cbn in *. destruct (eqb_spec d d'); cbn; [injection G as ->; rewrite E; reflexivity|]. f_equal. apply IH, G. Qed.
  (** replacing a child, or adding one *)
  Lemma dset_split {V} (f : nat * bt -> list V) ch d : exists a b, (forall c', flat_map f (dset ch d c') = a ++ f (d, c') ++ b) /\
    flat_map f ch = a ++ (match dget ch d with Some c => f (d, c) | None => [] end) ++ b.
  Proof.
    induction ch as [|[d' c] ch (a & b & H1 & H2)]; [exists [], []; split; reflexivity|]. cbn [dset dget]. destruct (eqb_spec d d') as [<-|N].
    - exists [], (flat_map f ch). split; reflexivity.
    - exists (f (d', c) ++ a), b. split; [intros c'; cbn [flat_map]; rewrite H1, <- app_assoc; reflexivity|]. cbn [flat_map]. rewrite H2, <- app_assoc. reflexivity.
  Qed.

  Definition sized (t : bt) : nat := length (ids t).
  Definition same_outside (t : bt) (n : nat) (g g' : bktree X) : Prop :=
    forall u, ~ In u (ids t) -> u <> n -> dget (au_adj (bk_aut g')) u = dget (au_adj (bk_aut g)) u /\ dget (bk_element g') u = dget (bk_element g) u.

  Lemma descend_spec w t : forall g, rep g t -> ok t -> NoDup (ids t) -> (forall u, In u (ids t) -> u < au_last (bk_aut g)) ->
    exists g' t' r, (forall fuel, sized t <= fuel -> bk_descend distance fuel g w (bid t) = Some (g', Ok r)) /\
      bid t' = bid t /\ belt t' = belt t /\ rep g' t' /\ ok t' /\ bk_root g' = bk_root g /\ dget (bk_element g') r = Some w /\
      ((g' = g /\ t' = t /\ In w (elems t)) \/
       (Permutation (ids t') (au_last (bk_aut g) :: ids t) /\ Permutation (elems t') (w :: elems t) /\ au_last (bk_aut g') = S (au_last (bk_aut g)) /\
        same_outside t (au_last (bk_aut g)) g g')).
  Proof.
    destruct M as (M0 & MS & _). induction t as [u x ch IH] using bt_induction. intros g R O N B. inversion R as [? ? ? R1 R2 R3]; subst. inversion O as [? ? ? O1 O2]; subst.
    set (d := distance w x). set (n := au_last (bk_aut g)) in *.
    destruct (Nat.eqb_spec d 0) as [D|D].
    { exists g, (BT u x ch), u. assert (w = x) by (apply M0, D). subst w. split; [|split; [reflexivity|split; [reflexivity|split; [exact R|split; [exact O|split; [reflexivity|split; [exact R1|]]]]]]].
      - intros [|fuel] L; [cbn in L; lia|]. cbn [bk_descend bid]. rewrite R1. fold d. rewrite D. reflexivity.
      - left. split; [reflexivity|]. split; [reflexivity|left; reflexivity]. }
    assert (Eu : forall fuel, bk_descend distance (S fuel) g w u = match dget ch d with
      | Some c => bk_descend distance fuel g w (bid c)
      | None => Some (mkBK (mkAut (S n) (dset (dset (au_adj (bk_aut g)) n []) u (dset (labels ch) d n)) (au_q0 (bk_aut g)) (au_final (bk_aut g))) (dset (bk_element g) n w) (bk_root g), Ok n)
      end).
    { intros fuel. cbn [bk_descend]. rewrite R1. fold d. destruct (Nat.eqb_spec d 0) as [|_]; [contradiction|]. unfold A_delta. rewrite R2, dget_labels.
      destruct (dget ch d) as [c|] eqn:G; [reflexivity|]. cbn [option_map]. unfold bk_add_vertex, A_add_vertex, A_add_edge, A_delta. fold n. cbn [bk_aut au_adj bk_element bk_root au_last au_q0 au_final].
      rewrite !dget_dset. destruct (eqb_spec u n) as [E|_]; [exfalso; specialize (B u (or_introl eq_refl)); lia|]. rewrite R2, dget_labels, G. reflexivity. }
    destruct (dset_split (fun p => ids (snd p)) ch d) as (ia & ib & I1 & I2). destruct (dset_split (fun p => elems (snd p)) ch d) as (ea & eb & E1 & E2).
    assert (DK : forall c', NoDup (dkeys (dset ch d c'))) by (intros c'; apply NoDup_dset, O1).
    assert (CH : forall c' d2 c2, In (d2, c2) (dset ch d c') -> (d2 = d /\ c2 = c') \/ (d2 <> d /\ In (d2, c2) ch)).
    { intros c' d2 c2 I. apply In_dget in I; [|apply DK]. rewrite dget_dset in I. destruct (eqb_spec d2 d) as [->|Nd]; [left; injection I as ->; auto|right; split; [exact Nd|apply dget_In, I]]. }
    cbn [ids] in N, B. inversion N as [|? ? N1 N2]; subst.
    destruct (dget ch d) as [c|] eqn:G.
    - pose proof (dget_In _ _ _ G) as Ic. destruct (O2 d c Ic) as [O3 O4].
      assert (IC : forall v, In v (ids c) -> In v (flat_map (fun p => ids (snd p)) ch)) by (intros v I; apply in_flat_map; exists (d, c); auto).
      assert (Nc : NoDup (ids c)). { rewrite I2 in N2. apply NoDup_app_inv in N2. destruct N2 as (_ & N2 & _). apply NoDup_app_inv in N2. apply N2. }
      destruct (IH d c Ic g (R3 d c Ic) O4 Nc) as (g' & c' & r & H1 & H2 & H3 & H4 & H5 & H6 & H7 & H8); [intros v I; apply B; right; apply IC, I|].
      exists g', (BT u x (dset ch d c')), r.
      assert (PI : Permutation (ids c') (n :: ids c) -> Permutation (ids (BT u x (dset ch d c'))) (n :: ids (BT u x ch))).
      { intros P. cbn [ids]. rewrite I1, I2. cbn [snd]. rewrite P. rewrite perm_swap. constructor. cbn [app]. symmetry. apply Permutation_middle. }
      assert (PE : Permutation (elems c') (w :: elems c) -> Permutation (elems (BT u x (dset ch d c'))) (w :: elems (BT u x ch))).
      { intros P. cbn [elems]. rewrite E1, E2. cbn [snd]. rewrite P. rewrite perm_swap. constructor. cbn [app]. symmetry. apply Permutation_middle. }
      split; [|split; [reflexivity|split; [reflexivity|split; [|split; [|split; [exact H6|split; [exact H7|]]]]]]].
      + intros [|fuel] L; [cbn in L; lia|]. cbn [bid]. rewrite Eu. apply H1. unfold sized in *. cbn [ids length] in L. rewrite I2 in L. cbn [snd] in L. rewrite !app_length in L. lia.
      + assert (OUT : forall v, v <> n -> ~ In v (ids c) -> dget (au_adj (bk_aut g')) v = dget (au_adj (bk_aut g)) v /\ dget (bk_element g') v = dget (bk_element g) v).
        { intros v Nv Iv. destruct H8 as [(-> & _)|(_ & _ & _ & S)]; [auto|]. apply S; assumption. }
        assert (Un : u <> n) by (specialize (B u (or_introl eq_refl)); lia).
        destruct (OUT u Un) as [F1 F2]; [intros I; apply N1, IC, I|].
        constructor; [congruence|rewrite (labels_same ch d c c' G H2); congruence|]. intros d2 c2 I. apply CH in I. destruct I as [[-> ->]|[Nd I]]; [exact H4|].
        apply (rep_frame g); [apply (R3 d2), I|]. intros v Iv.
        assert (Iv' : In v (flat_map (fun p => ids (snd p)) ch)) by (apply in_flat_map; exists (d2, c2); auto).
        apply OUT; [specialize (B v (or_intror Iv')); lia|]. intros Iv2.
        (* v in two children *)
        clear -N2 Ic I Iv Iv2 Nd. induction ch as [|[d0 c0] ch IHch]; [destruct I|]. cbn [flat_map snd] in N2. apply NoDup_app_inv in N2. destruct N2 as (N3 & N4 & N5).
        destruct I as [[= -> ->]|I], Ic as [[= -> ->]|Ic]; [congruence| | |apply IHch; assumption].
        * apply (N5 v Iv). apply in_flat_map. exists (d, c). auto.
        * apply (N5 v Iv2). apply in_flat_map. exists (d2, c2). auto.
      + constructor; [apply DK|]. intros d2 c2 I. apply CH in I. destruct I as [[-> ->]|[Nd I]]; [|apply O2, I]. split; [|exact H5].
        intros y Iy. destruct H8 as [(_ & -> & _)|(_ & P & _)]; [apply O3, Iy|]. apply (Permutation_in _ P) in Iy. destruct Iy as [<-|Iy]; [reflexivity|apply O3, Iy].
      + destruct H8 as [(-> & -> & Iw)|(P1 & P2 & P3 & P4)].
        * left. split; [reflexivity|]. split; [|right; apply in_flat_map; exists (d, c); auto]. f_equal. clear -G. induction ch as [|[d0 c0] ch IHch]; [discriminate|]. cbn in *. destruct (eqb_spec d d0) as [<-|]; [injection G as ->; reflexivity|f_equal; apply IHch, G].
        * right. split; [apply PI, P1|]. split; [apply PE, P2|]. split; [exact P3|]. intros v Iv Nv. apply P4; [|exact Nv]. intros I. apply Iv. right. apply IC, I.
    - set (leaf := BT n w []).
      exists (mkBK (mkAut (S n) (dset (dset (au_adj (bk_aut g)) n []) u (dset (labels ch) d n)) (au_q0 (bk_aut g)) (au_final (bk_aut g))) (dset (bk_element g) n w) (bk_root g)), (BT u x (dset ch d leaf)), n.
      assert (Un : u <> n) by (specialize (B u (or_introl eq_refl)); lia).
      split; [|split; [reflexivity|split; [reflexivity|split; [|split; [|split; [reflexivity|split; [|right]]]]]]].
      + intros [|fuel] L; [cbn in L; lia|]. cbn [bid]. rewrite Eu. reflexivity.
      + constructor; cbn [bk_aut au_adj bk_element].
        * rewrite dget_dset. destruct (eqb_spec u n); [contradiction|exact R1].
        * rewrite dget_dset, eqb_refl, labels_dset. reflexivity.
        * intros d2 c2 I. apply CH in I. destruct I as [[-> ->]|[Nd I]].
          -- constructor; cbn [bk_aut au_adj bk_element]; [rewrite dget_dset, eqb_refl; reflexivity| |intros ? ? []]. rewrite !dget_dset, eqb_refl. destruct (eqb_spec n u); [congruence|reflexivity].
          -- apply (rep_frame g); [apply (R3 d2), I|]. intros v Iv. assert (Iv' : In v (flat_map (fun p => ids (snd p)) ch)) by (apply in_flat_map; exists (d2, c2); auto).
             cbn [bk_aut au_adj bk_element]. rewrite !dget_dset. specialize (B v (or_intror Iv')). destruct (eqb_spec v u) as [->|]; [contradiction|]. destruct (eqb_spec v n); [lia|auto].
      + constructor; [apply DK|]. intros d2 c2 I. apply CH in I. destruct I as [[-> ->]|[Nd I]]; [|apply O2, I]. split; [intros y [<-|[]]; reflexivity|]. constructor; [constructor|intros ? ? []].
      + cbn [bk_element]. rewrite dget_dset, eqb_refl. reflexivity.
      + split; [|split; [|split; [reflexivity|]]].
        * cbn [ids]. rewrite I1, I2. cbn [snd leaf ids flat_map app]. rewrite perm_swap. constructor. symmetry. apply Permutation_middle.
        * cbn [elems]. rewrite E1, E2. cbn [snd leaf elems flat_map app]. rewrite perm_swap. constructor. symmetry. apply Permutation_middle.
        * intros v Iv Nv. cbn [bk_aut au_adj bk_element]. rewrite !dget_dset. destruct (eqb_spec v u) as [->|]; [destruct Iv; left; reflexivity|]. destruct (eqb_spec v n); [contradiction|auto].
  Qed.

  (** the trees built by insertions at the root *)
  Definition built (l : list X) (g : bktree X) : Prop :=
    match bk_root g with
    | None => l = [] /\ g = bk_init
    | Some r => exists t, bid t = r /\ rep g t /\ ok t /\ NoDup (ids t) /\ (forall u, In u (ids t) -> u < au_last (bk_aut g)) /\
        (forall x, In x (elems t) <-> In x l) /\ length (ids t) <= length l /\
        (forall u, dget (bk_element g) u <> None -> In u (ids t))
    end.
  Lemma insert_spec l g w : built l g -> exists g' r, (forall fuel, length l < fuel -> bk_insert distance fuel g w None = Some (g', Ok r)) /\
    built (l ++ [w]) g' /\ dget (bk_element g') r = Some w.
  Proof.
    intros Bg. unfold bk_insert. destruct (bk_root g) as [r|] eqn:RT; unfold built in Bg; rewrite RT in Bg.
    - destruct Bg as (t & <- & R & O & N & B & E & L & K). destruct (descend_spec w t g R O N B) as (g' & t' & v & H1 & H2 & H3 & H4 & H5 & H6 & H7 & H8).
      exists g', v. split; [intros fuel Lf; apply H1; unfold sized; lia|]. split; [|exact H7].
      unfold built. rewrite H6, RT. exists t'. rewrite app_length. cbn [length]. destruct H8 as [(-> & -> & I)|(P1 & P2 & P3 & P4)].
      + do 5 (split; [assumption|]). split; [|split; [lia|exact K]]. intros x. rewrite in_app_iff, <- E. cbn. intuition (subst; assumption).
      + do 3 (split; [assumption|]). split; [|split; [|split; [|split]]].
        * apply (Permutation_NoDup (Permutation_sym P1)). constructor; [|exact N]. intros I. specialize (B _ I). lia.
        * intros u I. apply (Permutation_in _ P1) in I. destruct I as [<-|I]; [lia|]. specialize (B u I). lia.
        * intros x. rewrite in_app_iff, <- E. split; [intros I; apply (Permutation_in _ P2) in I; cbn in *; tauto|intros I; apply (Permutation_in _ (Permutation_sym P2)); cbn in *; tauto].
        * rewrite (Permutation_length P1). cbn. lia.
        * intros u Iu. apply (Permutation_in _ (Permutation_sym P1)). destruct (Nat.eq_dec u (au_last (bk_aut g))) as [->|Nu]; [left; reflexivity|right].
          destruct (in_dec Nat.eq_dec u (ids t)) as [I|I]; [exact I|]. destruct (P4 u I Nu) as [_ P5]. rewrite P5 in Iu. apply K, Iu.
    - destruct Bg as [-> ->]. cbn. eexists _, 0. split; [intros; reflexivity|]. split; [|reflexivity]. exists (BT 0 w []). split; [reflexivity|].
      split; [constructor; [reflexivity|reflexivity|intros ? ? []]|]. split; [constructor; [constructor|intros ? ? []]|]. split; [repeat constructor; intros []|].
      split; [intros u [<-|[]]; cbn; lia|]. split; [reflexivity|]. split; [cbn; lia|].
      intros u. cbn. destruct (eqb_spec u 0) as [->|_]; [auto|congruence].
  Qed.
  Lemma inserts_spec l : forall l0 g, built l0 g -> exists g', (forall fuel, length l0 + length l <= fuel -> bk_inserts distance fuel l g = Some (g', Ok tt)) /\ built (l0 ++ l) g'.
  Proof.
    induction l as [|w l IH]; intros l0 g Bg; [exists g; rewrite app_nil_r; auto|]. destruct (insert_spec l0 g w Bg) as (g1 & r & H1 & H2 & _).
    destruct (IH _ _ H2) as (g' & H3 & H4). exists g'. rewrite <- app_assoc in H4. split; [|exact H4]. intros fuel L. cbn [length bk_inserts] in *. rewrite H1 by lia. apply H3. rewrite app_length. cbn. lia.
  Qed.

  (** Subtrees. *)
  Inductive sub : bt -> bt -> Prop :=
  | sub_refl t : sub t t
  | sub_child t u x ch d c : In (d, c) ch -> sub t c -> sub t (BT u x ch).
  Lemma sub_at t : forall r, In r (ids t) -> exists s, sub s t /\ bid s = r.
  Proof.
    induction t as [u x ch IH] using bt_induction. intros r [<-|I]; [exists (BT u x ch); split; [constructor|reflexivity]|].
    apply in_flat_map in I. destruct I as ([d c] & I & Ir). destruct (IH d c I r Ir) as (s & S & E). exists s. split; [econstructor; eassumption|exact E].
  Qed.
  Lemma sub_facts g s t : sub s t -> rep g t -> ok t -> rep g s /\ ok s /\ sized s <= sized t.
  Proof.
    induction 1 as [t|s u x ch d c I S IH]; intros R O; [auto|]. inversion R as [? ? ? R1 R2 R3]; subst. inversion O as [? ? ? O1 O2]; subst.
    destruct (IH (R3 d c I) (proj2 (O2 d c I))) as (H1 & H2 & H3). split; [exact H1|]. split; [exact H2|]. etransitivity; [exact H3|].
    unfold sized. cbn [ids length]. clear -I. induction ch as [|p ch IH]; [destruct I|]. cbn [flat_map length]. rewrite app_length. destruct I as [->|I]; [cbn; lia|specialize (IH I); lia].
  Qed.
  Lemma below_elems g t : rep g t -> ok t -> forall y, below g (bid t) y <-> In y (elems t).
  Proof.
    induction t as [u x ch IH] using bt_induction. intros R O y. inversion R as [? ? ? R1 R2 R3]; subst. inversion O as [? ? ? O1 O2]; subst. cbn [bid elems]. split.
    - intros (v & S & E). inversion S as [|? m ? (d & D) S']; subst; [left; congruence|right].
      unfold A_delta in D. rewrite R2, dget_labels in D. destruct (dget ch d) as [c|] eqn:G; [|discriminate]. injection D as D. apply dget_In in G.
      apply in_flat_map. exists (d, c). split; [exact G|]. apply (IH d c G (R3 d c G) (proj2 (O2 d c G))). rewrite D. exists v. auto.
    - intros [<-|I]; [exists u; split; [constructor|exact R1]|]. apply in_flat_map in I. destruct I as ([d c] & I & Iy).
      destruct (proj2 (IH d c I (R3 d c I) (proj2 (O2 d c I)) y) Iy) as (v & S & E). exists v. split; [|exact E].
      econstructor; [|exact S]. exists d. unfold A_delta. rewrite R2, dget_labels, (In_dget _ _ _ O1 I). reflexivity.
  Qed.
  Lemma descend_mono fuel : forall fuel' g w u r, bk_descend distance fuel g w u = Some r -> fuel <= fuel' -> bk_descend distance fuel' g w u = Some r.
  Proof.
    induction fuel as [|fuel IH]; intros fuel' g w u r; [discriminate|]. destruct fuel' as [|fuel']; [lia|]. cbn [bk_descend]. destruct (dget (bk_element g) u) as [x|]; [|auto].
    destruct (_ =? 0); [auto|]. destruct (A_delta (bk_aut g) u _) as [v|]; [|auto]. intros H L. apply IH; [exact H|lia].
  Qed.
  Lemma descend_on_way g w u v : steps (on_way distance g w) u v -> forall fuel r, bk_descend distance fuel g w u = Some r -> bk_descend distance fuel g w v = Some r.
  Proof.
    induction 1 as [u|u m v (x & E & N & D) S IH]; intros fuel r H; [exact H|]. apply IH. destruct fuel as [|fuel]; [discriminate|].
    cbn [bk_descend] in H. rewrite E in H. apply Nat.eqb_neq in N. rewrite N, D in H. apply (descend_mono fuel); [exact H|lia].
  Qed.

  (** Search in a forest. *)
  Definition found (w : X) (F : list X) (wb : option X) (db : nat) (wb' : option X) (db' : nat) : Prop :=
    (wb' = wb /\ db' = db /\ forall y, In y F -> db < distance w y) \/
    (exists y, In y F /\ wb' = Some y /\ db' = distance w y /\ db' <= db /\ forall z, In z F -> db' <= distance w z).
  Definition size_of (F : list bt) : nat := list_sum (map sized F).
  Lemma search_spec w g : forall fuel F wb db, (forall t, In t F -> rep g t /\ ok t) -> size_of F <= fuel ->
    exists wb' db', bk_search_loop distance fuel g w (map bid F) wb db = Some (Ok (wb', db')) /\ found w (flat_map elems F) wb db wb' db'.
  Proof.
    destruct M as (_ & MS & MT). induction fuel as [|fuel IH]; intros F wb db HF L.
    { destruct F as [|t F]; [|exfalso; destruct t; cbn in L; lia]. exists wb, db. split; [reflexivity|]. left. split; [reflexivity|]. split; [reflexivity|intros y []]. }
    destruct F as [|t F]; [exists wb, db; split; [reflexivity|]; left; split; [reflexivity|]; split; [reflexivity|intros y []]|].
    destruct (HF t (or_introl eq_refl)) as [R O]. destruct t as [u x ch]. inversion R as [? ? ? R1 R2 R3]; subst. inversion O as [? ? ? O1 O2]; subst.
    cbn [map bid bk_search_loop]. rewrite R1. set (du := distance w x). set (b := if du <=? db then (Some x, du) else (wb, db)). destruct b as [wb1 db1] eqn:Eb. subst b.
    set (keep := fun p : nat * bt => let d_uv := fst p in (d_uv - du) + (du - d_uv) <=? db1).
    assert (EQ : map target (filter (fun e => (distinguisher e - du) + (du - distinguisher e) <=? db1) (A_out_edges (bk_aut g) u)) = map bid (map snd (filter keep ch))).
    { unfold A_out_edges. rewrite R2. clear. induction ch as [|[d c] ch IH]; [reflexivity|]. cbn. unfold keep at 2. cbn. destruct (_ <=? db1); cbn; [f_equal|]; exact IH. }
    rewrite EQ, <- map_app. destruct (IH (F ++ map snd (filter keep ch)) wb1 db1) as (wb' & db' & H1 & H2).
    { intros t I. apply in_app_iff in I. destruct I as [I|I]; [apply HF; right; exact I|]. apply in_map_iff in I. destruct I as ([d c] & <- & I). apply filter_In in I. destruct I as [I _].
      split; [apply (R3 d), I|apply (O2 d), I]. }
    { change (S (length (flat_map (fun p => ids (snd p)) ch)) + size_of F <= S fuel) in L. unfold size_of in *. rewrite map_app, list_sum_app.
      assert (list_sum (map sized (map snd (filter keep ch))) <= length (flat_map (fun p => ids (snd p)) ch)); [|lia].
      clear. induction ch as [|p ch IH]; [reflexivity|]. cbn [filter flat_map]. rewrite app_length. destruct (keep p); [|lia]. change (sized (snd p) + list_sum (map sized (map snd (filter keep ch))) <= length (ids (snd p)) + length (flat_map (fun p => ids (snd p)) ch)). unfold sized at 1. lia. }
    exists wb', db'. split; [exact H1|].
    assert (CUT : forall y, In y (flat_map (fun p => elems (snd p)) ch) -> In y (flat_map elems (F ++ map snd (filter keep ch))) \/ db1 < distance w y).
    { intros y I. apply in_flat_map in I. destruct I as ([d c] & I & Iy). cbn [snd] in Iy. destruct (keep (d, c)) eqn:K.
      - left. apply in_flat_map. exists c. split; [|exact Iy]. apply in_app_iff. right. apply in_map_iff. exists (d, c). split; [reflexivity|]. apply filter_In. auto.
      - right. unfold keep in K. cbn [fst] in K. apply Nat.leb_gt in K. destruct (O2 d c I) as [D _]. specialize (D y Iy).
        pose proof (MT w y x). pose proof (MT y w x). rewrite (MS y w) in *. subst d. unfold du in K. lia. }
    assert (REST : forall y, In y (flat_map elems (F ++ map snd (filter keep ch))) -> In y (flat_map elems (BT u x ch :: F))).
    { intros y. cbn [flat_map elems]. rewrite flat_map_app, in_app_iff. cbn. rewrite in_app_iff. intros [I|I]; [auto|]. right. left. apply in_flat_map in I. destruct I as (c & I & Iy).
      apply in_map_iff in I. destruct I as (p & <- & I). apply filter_In in I. apply in_flat_map. exists p. tauto. }
    assert (ALL : forall y, In y (flat_map elems (BT u x ch :: F)) -> y = x \/ In y (flat_map elems (F ++ map snd (filter keep ch))) \/ db1 < distance w y).
    { intros y. cbn [flat_map elems app In]. rewrite in_app_iff. intros [I|[I|I]]; [auto|right; apply CUT, I|]. right. left. rewrite flat_map_app, in_app_iff. auto. }
    assert (Hx : (wb1 = Some x /\ db1 = du /\ du <= db) \/ (wb1 = wb /\ db1 = db /\ db < du)).
    { destruct (Nat.leb_spec du db); injection Eb as <- <-; auto. }
    destruct H2 as [(-> & -> & H2)|(y & Iy & -> & -> & Ly & Hy)].
    - destruct Hx as [(-> & -> & Lx)|(-> & -> & Lx)].
      + right. exists x. split; [left; reflexivity|]. do 2 (split; [reflexivity|]). split; [exact Lx|]. intros z Iz. destruct (ALL z Iz) as [->|[I|I]]; [reflexivity|specialize (H2 z I); lia|lia].
      + left. do 2 (split; [reflexivity|]). intros z Iz. destruct (ALL z Iz) as [->|[I|I]]; [exact Lx|exact (H2 z I)|exact I].
    - right. exists y. split; [apply REST, Iy|]. do 2 (split; [reflexivity|]). split; [destruct Hx as [(_ & -> & ?)|(_ & -> & ?)]; lia|].
      intros z Iz. destruct (ALL z Iz) as [->|[I|I]]; [destruct Hx as [(_ & -> & ?)|(_ & -> & ?)]; fold du; lia|exact (Hy z I)|lia].
  Qed.
End T.
