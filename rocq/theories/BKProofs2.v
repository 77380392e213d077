(** BKTree: insertions from any node. *)
From Verif Require Import Base Graph Automaton SearchSpec BKTree BKSpec BKProofs BaseProofs.
#[local] Arguments dkeys : simpl never.

Section T.
  Context {X : Type}.
  Variable distance : X -> X -> nat.
  Hypothesis M : metric distance.
  Notation bt := (@bt X).

  (** BK-trees, except that the nodes outside of P may be anywhere *)
  Inductive okp (g : bktree X) (P : nat -> Prop) : bt -> Prop :=
  | okp_node u x ch : NoDup (dkeys ch) -> (forall d c, In (d, c) ch -> (forall i y, In i (ids c) -> P i -> dget (bk_element g) i = Some y -> distance y x = d) /\ okp g P c) -> okp g P (BT u x ch).
  Lemma elem_of_way g (t : bt) v y : rep g t -> In v (ids t) -> dget (bk_element g) v = Some y -> In y (elems t).
  Proof.
    induction t as [u x ch IH] using bt_induction. intros R Iv E. inversion R as [? ? ? R1 R2 R3]; subst. destruct Iv as [<-|Iv]; [left; congruence|right].
    apply in_flat_map in Iv. destruct Iv as ([d c] & I & Iv). apply in_flat_map. exists (d, c). split; [exact I|]. apply (IH d c I (R3 d c I) Iv E).
  Qed.
  Lemma ok_okp g P t : rep g t -> ok distance t -> okp g P t.
  Proof.
    induction t as [u x ch IH] using bt_induction. intros R O. inversion R as [? ? ? R1 R2 R3]; subst. inversion O as [? ? ? O1 O2]; subst. constructor; [exact O1|].
    intros d c I. destruct (O2 d c I) as [O3 O4]. split; [|apply (IH d c I (R3 d c I)), O4]. intros i y Ii _ E. apply O3, (elem_of_way g c i y (R3 d c I) Ii E).
  Qed.
  Lemma rep_elem g (t : bt) i : rep g t -> In i (ids t) -> exists y, dget (bk_element g) i = Some y.
  Proof.
    induction t as [u x ch IH] using bt_induction. intros R Ii. inversion R as [? ? ? R1 R2 R3]; subst. destruct Ii as [<-|Ii]; [exists x; exact R1|].
    apply in_flat_map in Ii. destruct Ii as ([d c] & I & Ii). apply (IH d c I (R3 d c I) Ii).
  Qed.

  Definition foundp (g : bktree X) (P : nat -> Prop) (w : X) (F : list nat) (wb : option X) (db : nat) (wb' : option X) (db' : nat) : Prop :=
    (wb' = wb /\ db' = db /\ forall i y, In i F -> P i -> dget (bk_element g) i = Some y -> db < distance w y) \/
    (exists i y, In i F /\ dget (bk_element g) i = Some y /\ wb' = Some y /\ db' = distance w y /\ db' <= db /\ forall i z, In i F -> P i -> dget (bk_element g) i = Some z -> db' <= distance w z).
  Lemma searchp_spec P w g : forall fuel F wb db, (forall t, In t F -> rep g t /\ okp g P t) -> size_of F <= fuel ->
    exists wb' db', bk_search_loop distance fuel g w (map bid F) wb db = Some (Ok (wb', db')) /\ foundp g P w (flat_map ids F) wb db wb' db'.
  Proof.
    destruct M as (_ & MS & MT). induction fuel as [|fuel IH]; intros F wb db HF L.
    { destruct F as [|t F]; [|exfalso; destruct t; cbn in L; lia]. exists wb, db. split; [reflexivity|]. left. split; [reflexivity|]. split; [reflexivity|intros i y []]. }
    destruct F as [|t F]; [exists wb, db; split; [reflexivity|]; left; split; [reflexivity|]; split; [reflexivity|intros i y []]|].
    destruct (HF t (or_introl eq_refl)) as [R O]. destruct t as [u x ch]. inversion R as [? ? ? R1 R2 R3]; subst. inversion O as [? ? ? O1 O2]; subst.
    cbn [map bid bk_search_loop]. rewrite R1. set (du := distance w x). set (b := if du <=? db then (Some x, du) else (wb, db)). destruct b as [wb1 db1] eqn:Eb. subst b.
    set (keep := fun p : nat * bt => let d_uv := fst p in (d_uv - du) + (du - d_uv) <=? db1).
    assert (EQ : map target (filter (fun e => (distinguisher e - du) + (du - distinguisher e) <=? db1) (A_out_edges (bk_aut g) u)) = map bid (map snd (filter keep ch))).
    { unfold A_out_edges. rewrite R2. clear. induction ch as [|[d c] ch IH]; [reflexivity|]. cbn. unfold keep at 2. cbn. destruct (_ <=? db1); cbn; [f_equal|]; exact IH. }
    rewrite EQ, <- map_app. destruct (IH (F ++ map snd (filter keep ch)) wb1 db1) as (wb' & db' & H1 & H2).
    { intros t I. apply in_app_iff in I. destruct I as [I|I]; [apply HF; right; exact I|]. apply in_map_iff in I. destruct I as ([d c] & <- & I). apply filter_In in I. destruct I as [I _].
      split; [apply (R3 d), I|apply (O2 d), I]. }
    { change (S (length (flat_map (fun p => ids (snd p)) ch)) + size_of F <= S fuel) in L. unfold size_of in *. rewrite map_app, list_sum_app.
      assert (list_sum (map sized (map snd (filter keep ch))) <= length (flat_map (fun p => ids (snd p)) ch)); [|lia].
      clear. induction ch as [|p ch IH]; [reflexivity|]. cbn [filter flat_map]. rewrite app_length. destruct (keep p); [|lia]. change (sized (snd p) + list_sum (map sized (map snd (filter keep ch))) <= length (ids (snd p)) + length (flat_map (fun p => ids (snd p)) ch)). unfold sized at 1. lia. }
    exists wb', db'. split; [exact H1|].
    assert (CUT : forall i y, In i (flat_map (fun p => ids (snd p)) ch) -> P i -> dget (bk_element g) i = Some y -> In i (flat_map ids (F ++ map snd (filter keep ch))) \/ db1 < distance w y).
    { intros i y I Pi Ei. apply in_flat_map in I. destruct I as ([d c] & I & Iy). cbn [snd] in Iy. destruct (keep (d, c)) eqn:K.
      - left. apply in_flat_map. exists c. split; [|exact Iy]. apply in_app_iff. right. apply in_map_iff. exists (d, c). split; [reflexivity|]. apply filter_In. auto.
      - right. unfold keep in K. cbn [fst] in K. apply Nat.leb_gt in K. destruct (O2 d c I) as [D _]. specialize (D i y Iy Pi Ei).
        pose proof (MT w y x). pose proof (MT y w x). rewrite (MS y w) in *. subst d. unfold du in K. lia. }
    assert (REST : forall i, In i (flat_map ids (F ++ map snd (filter keep ch))) -> In i (flat_map ids (BT u x ch :: F))).
    { intros i. cbn [flat_map ids]. rewrite flat_map_app, in_app_iff. cbn. rewrite in_app_iff. intros [I|I]; [auto|]. right. left. apply in_flat_map in I. destruct I as (c & I & Iy).
      apply in_map_iff in I. destruct I as (p & <- & I). apply filter_In in I. apply in_flat_map. exists p. tauto. }
    assert (ALL : forall i y, In i (flat_map ids (BT u x ch :: F)) -> P i -> dget (bk_element g) i = Some y -> y = x \/ In i (flat_map ids (F ++ map snd (filter keep ch))) \/ db1 < distance w y).
    { intros i y. cbn [flat_map ids app In]. rewrite in_app_iff. intros [<-|[I|I]] Pi Ei; [left; congruence|right; apply CUT; assumption|]. right. left. rewrite flat_map_app, in_app_iff. auto. }
    assert (Hx : (wb1 = Some x /\ db1 = du /\ du <= db) \/ (wb1 = wb /\ db1 = db /\ db < du)).
    { destruct (Nat.leb_spec du db); injection Eb as <- <-; auto. }
    destruct H2 as [(-> & -> & H2)|(i & y & Iy & Ey & -> & -> & Ly & Hy)].
    - destruct Hx as [(-> & -> & Lx)|(-> & -> & Lx)].
      + right. exists u, x. split; [left; reflexivity|]. split; [exact R1|]. do 2 (split; [reflexivity|]). split; [exact Lx|]. intros i z Iz Pz Ez. destruct (ALL i z Iz Pz Ez) as [->|[I|I]]; [reflexivity|specialize (H2 i z I Pz Ez); lia|lia].
      + left. do 2 (split; [reflexivity|]). intros i z Iz Pz Ez. destruct (ALL i z Iz Pz Ez) as [->|[I|I]]; [exact Lx|exact (H2 i z I Pz Ez)|exact I].
    - right. exists i, y. split; [apply REST, Iy|]. split; [exact Ey|]. do 2 (split; [reflexivity|]). split; [destruct Hx as [(_ & -> & ?)|(_ & -> & ?)]; lia|].
      intros j z Iz Pz Ez. destruct (ALL j z Iz Pz Ez) as [->|[I|I]]; [destruct Hx as [(_ & -> & ?)|(_ & -> & ?)]; fold du; lia|exact (Hy j z I Pz Ez)|lia].
  Qed.

  (** the subtree s replaced by s', which holds w in addition *)
  Lemma sub_ids (s t : bt) : sub s t -> forall v, In v (ids s) -> In v (ids t).
  Proof. induction 1 as [t|s u x ch d c I S IH]; intros v Iv; [exact Iv|]. right. apply in_flat_map. exists (d, c). split; [exact I|apply IH, Iv]. Qed.
  Lemma two_children (ch : list (nat * bt)) d c d2 c2 v : NoDup (flat_map (fun p => ids (snd p)) ch) -> In (d, c) ch -> In (d2, c2) ch -> In v (ids c) -> In v (ids c2) -> d2 = d /\ c2 = c.
  Proof.
    induction ch as [|[d0 c0] ch IHch]; intros N2 Ic I Iv2 Iv; [destruct I|]. cbn [flat_map snd] in N2. apply NoDup_app_inv in N2. destruct N2 as (N3 & N4 & N5).
    destruct I as [E|I], Ic as [E'|Ic].
    - rewrite E in E'. injection E' as <- <-. auto.
    - injection E as -> ->. exfalso. apply (N5 v Iv). apply in_flat_map. exists (d, c). auto.
    - injection E' as -> ->. exfalso. apply (N5 v Iv2). apply in_flat_map. exists (d2, c2). auto.
    - apply IHch; assumption.
  Qed.
  Lemma sub_NoDup (s t : bt) : sub s t -> NoDup (ids t) -> NoDup (ids s).
  Proof.
    induction 1 as [t|s u x ch d c I S IH]; intros N; [exact N|]. apply IH. cbn [ids] in N. apply NoDup_cons_iff in N. destruct N as [_ N].
    clear -N I. induction ch as [|p ch IHc]; [destruct I|]. cbn [flat_map] in N. apply NoDup_app_inv in N. destruct N as (N1 & N2 & _). destruct I as [->|I]; [exact N1|apply IHc; assumption].
  Qed.
  Lemma replace_spec (w : X) g g' (s s' t : bt) : sub s t -> rep g t -> ok distance t -> NoDup (ids t) -> (forall u, In u (ids t) -> u < au_last (bk_aut g)) ->
    bid s' = bid s -> rep g' s' -> ok distance s' -> Permutation (ids s') (au_last (bk_aut g) :: ids s) -> Permutation (elems s') (w :: elems s) -> same_outside s (au_last (bk_aut g)) g g' ->
    (forall q, q <> au_last (bk_aut g) -> dget (bk_element g') q = dget (bk_element g) q) ->
    exists t', bid t' = bid t /\ rep g' t' /\ okp g' (fun i => i <> au_last (bk_aut g)) t' /\ Permutation (ids t') (au_last (bk_aut g) :: ids t) /\ Permutation (elems t') (w :: elems t).
  Proof.
    intros S. set (n := au_last (bk_aut g)). induction S as [t|s u x ch d c Ic S IH]; intros R O N B Hb Hr Ho Hi He Hs Hq.
    { exists s'. split; [exact Hb|]. split; [exact Hr|]. split; [apply ok_okp; assumption|]. auto. }
    inversion R as [? ? ? R1 R2 R3]; subst. inversion O as [? ? ? O1 O2]; subst. destruct (O2 d c Ic) as [O3 O4].
    assert (IC : forall v, In v (ids c) -> In v (flat_map (fun p => ids (snd p)) ch)) by (intros v I; apply in_flat_map; exists (d, c); auto).
    assert (SC : sub c (BT u x ch)) by (econstructor; [exact Ic|constructor]).
    destruct (IH (R3 d c Ic) O4 (sub_NoDup _ _ SC N)) as (c' & H1 & H2 & H3 & H4 & H5); try assumption. { intros v I. apply B. right. apply IC, I. }
    pose proof (In_dget _ _ _ O1 Ic) as G.
    destruct (dset_split (fun p => ids (snd p)) ch d) as (ia & ib & I1 & I2). destruct (dset_split (fun p => elems (snd p)) ch d) as (ea & eb & E1 & E2). rewrite G in I2, E2. cbn [snd] in *.
    cbn [ids] in N, B. inversion N as [|? ? N1 N2]; subst.
    assert (Un : u <> n) by (specialize (B u (or_introl eq_refl)); lia).
    exists (BT u x (dset ch d c')). split; [reflexivity|].
    assert (CH : forall d2 c2, In (d2, c2) (dset ch d c') -> (d2 = d /\ c2 = c') \/ (d2 <> d /\ In (d2, c2) ch)).
    { intros d2 c2 I. apply In_dget in I; [|apply NoDup_dset, O1]. rewrite dget_dset in I. destruct (eqb_spec d2 d) as [->|Nd]; [left; injection I as ->; auto|right; split; [exact Nd|apply dget_In, I]]. }
    split; [|split; [|split]].
    - assert (OUT : forall v, v <> n -> ~ In v (ids c) -> dget (au_adj (bk_aut g')) v = dget (au_adj (bk_aut g)) v /\ dget (bk_element g') v = dget (bk_element g) v).
      { intros v Nv Iv. apply Hs; [|exact Nv]. intros I. apply Iv, (sub_ids s c S), I. }
      destruct (OUT u Un) as [F1 F2]; [intros I; apply N1, IC, I|].
      constructor; [congruence|rewrite (labels_same ch d c c' G H1); congruence|]. intros d2 c2 I. apply CH in I. destruct I as [[-> ->]|[Nd I]]; [exact H2|].
      apply (rep_frame g); [apply (R3 d2), I|]. intros v Iv.
      assert (Iv' : In v (flat_map (fun p => ids (snd p)) ch)) by (apply in_flat_map; exists (d2, c2); auto).
      apply OUT; [specialize (B v (or_intror Iv')); lia|]. intros Iv2. destruct (two_children ch d c d2 c2 v N2 Ic I Iv2 Iv). contradiction.
    - constructor; [apply NoDup_dset, O1|]. intros d2 c2 I. apply CH in I. destruct I as [[-> ->]|[Nd I]].
      + split; [|exact H3]. intros i y Ii Ni Ei. apply (Permutation_in _ H4) in Ii. destruct Ii as [<-|Ii]; [destruct (Ni eq_refl)|]. rewrite (Hq i Ni) in Ei. apply O3, (elem_of_way g c i y (R3 d c Ic) Ii Ei).
      + destruct (O2 d2 c2 I) as [O5 O6]. assert (R6 : rep g' c2).
        { apply (rep_frame g); [apply (R3 d2), I|]. intros v Iv. assert (Iv' : In v (flat_map (fun p => ids (snd p)) ch)) by (apply in_flat_map; exists (d2, c2); auto).
          apply Hs; [|specialize (B v (or_intror Iv')); lia]. intros Is. destruct (two_children ch d c d2 c2 v N2 Ic I (sub_ids s c S v Is) Iv). contradiction. }
        split; [|apply ok_okp; assumption]. intros i y Ii Ni Ei. rewrite (Hq i Ni) in Ei. apply O5, (elem_of_way g c2 i y (R3 d2 c2 I) Ii Ei).
    - cbn [ids]. rewrite I1, I2. cbn [snd]. rewrite H4. rewrite perm_swap. constructor. cbn [app]. symmetry. apply Permutation_middle.
    - cbn [elems]. rewrite E1, E2. cbn [snd]. rewrite H5. rewrite perm_swap. constructor. cbn [app]. symmetry. apply Permutation_middle.
  Qed.

  (** what insert does to the two tables *)
  Lemma descend_tables w g : forall fuel u g' r, (forall v, dget (bk_element g) v <> None -> v < au_last (bk_aut g)) -> bk_descend distance fuel g w u = Some (g', Ok r) ->
    (g' = g /\ exists x, dget (bk_element g) r = Some x /\ distance w x = 0 /\ steps (on_way distance g w) u r) \/
    (exists p x, steps (on_way distance g w) u p /\ dget (bk_element g) p = Some x /\ distance w x <> 0 /\ A_delta (bk_aut g) p (distance w x) = None /\ dget (au_adj (bk_aut g)) p <> None /\
      r = au_last (bk_aut g) /\ bk_root g' = bk_root g /\ (forall q, dget (bk_element g') q = if eqb q r then Some w else dget (bk_element g) q) /\
      (forall q d, A_delta (bk_aut g') q d = if eqb q p && eqb d (distance w x) then Some r else if eqb q r then None else A_delta (bk_aut g) q d)).
  Proof.
    induction fuel as [|fuel IH]; intros u g' r B H; [discriminate|]. cbn [bk_descend] in H. destruct (dget (bk_element g) u) as [x|] eqn:Eu; [|discriminate].
    destruct (Nat.eqb_spec (distance w x) 0) as [D|D].
    { injection H; intros; subst. left. split; [reflexivity|]. exists x. split; [exact Eu|]. split; [exact D|constructor]. }
    destruct (A_delta (bk_aut g) u (distance w x)) as [v|] eqn:DU.
    { assert (W : on_way distance g w u v) by (exists x; auto). destruct (IH _ _ _ B H) as [(-> & y & H1 & H2 & H3)|(p & y & H1 & H2)].
      - left. split; [reflexivity|]. exists y. split; [exact H1|]. split; [exact H2|]. econstructor; [exact W|exact H3].
      - right. exists p, y. split; [econstructor; [exact W|exact H1]|exact H2]. }
    right. exists u, x. assert (Un : u <> au_last (bk_aut g)) by (specialize (B u ltac:(congruence)); lia).
    unfold bk_add_vertex, A_add_vertex, A_add_edge in H. cbn [bk_aut au_adj bk_element bk_root au_last au_q0 au_final] in H. unfold A_delta in H, DU. cbn [bk_aut au_adj] in H.
    rewrite !dget_dset in H. destruct (eqb_spec u (au_last (bk_aut g))) as [|_]; [contradiction|]. destruct (dget (au_adj (bk_aut g)) u) as [a|] eqn:EA; [|discriminate]. rewrite DU in H.
    injection H; intros; subst. clear H. split; [constructor|]. split; [exact Eu|]. split; [exact D|]. split; [unfold A_delta; rewrite EA; exact DU|]. split; [congruence|].
    split; [reflexivity|]. split; [reflexivity|]. cbn [bk_aut bk_element au_adj]. split; [intros q; apply dget_dset|].
    intros q d. unfold A_delta. cbn [au_adj]. rewrite !dget_dset. destruct (eqb_spec q u) as [->|Nq]; cbn [andb].
    - rewrite dget_dset. destruct (eqb_spec d (distance w x)); [reflexivity|]. destruct (eqb_spec u (au_last (bk_aut g))); [contradiction|]. rewrite EA. reflexivity.
    - destruct (eqb_spec q (au_last (bk_aut g))); reflexivity.
  Qed.

  (** search at distance 0 follows the way of the element *)
  Lemma child_delta g u x (ch : list (nat * bt)) d b : rep g (BT u x ch) -> A_delta (bk_aut g) u d = Some b <-> exists c, dget ch d = Some c /\ b = bid c.
  Proof.
    intros R. inversion R as [? ? ? R1 R2 R3]; subst. unfold A_delta. rewrite R2, dget_labels. destruct (dget ch d) as [c|]; cbn; [|split; [discriminate|intros (? & [=] & _)]].
    split; [intros [= <-]; exists c; auto|intros (? & [= <-] & ->); reflexivity].
  Qed.
  Lemma search0_spec P w g : forall fuel F wb wb' db', (forall t, In t F -> rep g t /\ okp g P t) -> bk_search_loop distance fuel g w (map bid F) wb 0 = Some (Ok (wb', db')) ->
    (wb' <> None <-> wb <> None \/ exists t v, In t F /\ steps (on_way distance g w) (bid t) v /\ dget (bk_element g) v = Some w).
  Proof.
    destruct M as (M0 & _ & _). assert (MW : distance w w = 0) by (apply M0; reflexivity). induction fuel as [|fuel IH]; intros F wb wb' db' HF; (destruct F as [|t F]; [cbn; intros [= <- <-]; split; [auto|intros [H|(? & ? & [] & _)]; exact H]|]).
    { destruct t; discriminate. }
    destruct (HF t (or_introl eq_refl)) as [R O]. destruct t as [u x ch]. pose proof R as R'. inversion R' as [? ? ? R1 R2 R3]; subst. inversion O as [? ? ? O1 O2]; subst.
    cbn [map bid bk_search_loop]. rewrite R1. remember (distance w x) as du eqn:Edu.
    set (keep := fun p : nat * bt => let d_uv := fst p in (d_uv - du) + (du - d_uv) <=? 0).
    assert (EQ : map target (filter (fun e => (distinguisher e - du) + (du - distinguisher e) <=? 0) (A_out_edges (bk_aut g) u)) = map bid (map snd (filter keep ch))).
    { unfold A_out_edges, keep. rewrite R2. generalize 0 as k. clear. intros k. induction ch as [|[d c] ch IH]; [reflexivity|]. cbn. destruct (_ <=? k); cbn; [f_equal|]; exact IH. }
    assert (KP : forall c, In c (map snd (filter keep ch)) <-> dget ch du = Some c).
    { intros c. rewrite in_map_iff. split.
      - intros ([d c'] & <- & I). apply filter_In in I. destruct I as [I K]. unfold keep in K. cbn [fst] in K. apply Nat.leb_le in K. replace du with d by lia. apply In_dget; assumption.
      - intros G. exists (du, c). split; [reflexivity|]. apply filter_In. split; [apply dget_In, G|]. unfold keep. cbn [fst]. apply Nat.leb_le. lia. }
    assert (HF' : forall t, In t (F ++ map snd (filter keep ch)) -> rep g t /\ okp g P t).
    { intros t I. apply in_app_iff in I. destruct I as [I|I]; [apply HF; right; exact I|]. apply KP, dget_In in I. split; [apply (R3 du), I|apply (O2 du), I]. }
    destruct (Nat.leb_spec du 0) as [D|D]; [assert (D0 : du = 0) by lia; clear D; rewrite D0 in * |]; rewrite EQ, <- map_app.
    - assert (Ex : w = x) by (apply M0; congruence). subst x. intros H. apply IH in H; [|exact HF'].
      split; [intros _; right; exists (BT u w ch), u; split; [left; reflexivity|split; [constructor|exact R1]]|]. intros _. apply H. left. discriminate.
    - intros H. apply IH in H; [|exact HF']. rewrite H. split; (intros [?|(t & v & I & S & E)]; [left; assumption|right]).
      + apply in_app_iff in I. destruct I as [I|I]; [exists t, v; split; [right; exact I|auto]|]. apply KP in I. exists (BT u x ch), v. split; [left; reflexivity|]. split; [|exact E].
        cbn [bid]. econstructor; [|exact S]. exists x. split; [exact R1|]. split; [lia|]. rewrite <- Edu. apply (child_delta g u x ch); [exact R|]. exists t. auto.
      + destruct I as [<-|I]; [|exists t, v; split; [apply in_app_iff; left; exact I|auto]]. cbn [bid] in S. inversion S as [|? b ? W S']; subst.
        * exfalso. replace w with x in * by congruence. lia.
        * destruct W as (x' & E1 & _ & E2). replace x' with x in * by congruence. apply (child_delta g u x ch) in E2; [|exact R]. destruct E2 as (c & G & ->).
          exists c, v. split; [apply in_app_iff; right; apply KP, G|auto].
  Qed.

  (** the way of an element in the tree *)
  Lemma on_way_in g w (t : bt) : rep g t -> forall a b, In a (ids t) -> on_way distance g w a b -> In b (ids t).
  Proof.
    induction t as [u x ch IH] using bt_induction. intros R a b Ia W. pose proof R as R'. inversion R' as [? ? ? R1 R2 R3]; subst. right. apply in_flat_map. destruct Ia as [<-|Ia].
    - destruct W as (x' & _ & _ & D). apply (child_delta g u x ch) in D; [|exact R]. destruct D as (c & G & ->). apply dget_In in G. exists (distance w x', c). split; [exact G|]. destruct c; left; reflexivity.
    - apply in_flat_map in Ia. destruct Ia as ([d c] & I & Ia). exists (d, c). split; [exact I|]. apply (IH d c I (R3 d c I) a b Ia W).
  Qed.
  Lemma steps_way_in g w (t : bt) a b : steps (on_way distance g w) a b -> rep g t -> In a (ids t) -> In b (ids t).
  Proof. induction 1 as [a|a m b W S IH]; intros R I; [exact I|]. apply IH; [exact R|]. apply (on_way_in g w t R a m I W). Qed.
  Lemma way_above g w (t : bt) u p : rep g t -> NoDup (ids t) -> In u (ids t) -> steps (on_way distance g w) u p -> steps (on_way distance g w) (bid t) p -> steps (on_way distance g w) (bid t) u.
  Proof.
    induction t as [r x ch IH] using bt_induction. intros R N [<-|Iu] Su Sr; [constructor|]. apply in_flat_map in Iu. destruct Iu as ([d c] & I & Iu). cbn [snd bid] in *.
    pose proof R as R'. inversion R' as [? ? ? R1 R2 R3]; subst. pose proof (steps_way_in g w c u p Su (R3 d c I) Iu) as Ip. pose proof N as N'. cbn [ids] in N'. apply NoDup_cons_iff in N'. destruct N' as [N1 N2].
    inversion Sr as [|? b ? W S']; subst; [destruct N1; apply in_flat_map; exists (d, c); auto|].
    pose proof W as (x' & _ & _ & D). apply (child_delta g r x ch) in D; [|exact R]. destruct D as (c2 & G & ->). apply dget_In in G.
    assert (Ip2 : In p (ids c2)). { apply (steps_way_in g w c2 (bid c2) p S' (R3 _ _ G)). destruct c2; left; reflexivity. }
    destruct (two_children ch d c (distance w x') c2 p N2 I G Ip Ip2) as [_ ->]. econstructor; [exact W|]. apply (IH d c I); [apply (R3 d), I| |exact Iu|exact Su|exact S'].
    apply (sub_NoDup c (BT r x ch)); [econstructor; [exact I|constructor]|exact N].
  Qed.
  Lemma way_of_elem g w (t : bt) : rep g t -> ok distance t -> In w (elems t) -> exists v, steps (on_way distance g w) (bid t) v /\ dget (bk_element g) v = Some w.
  Proof.
    destruct M as (M0 & _ & _). induction t as [u x ch IH] using bt_induction. intros R O Iw. pose proof R as R'. inversion R' as [? ? ? R1 R2 R3]; subst. inversion O as [? ? ? O1 O2]; subst.
    destruct (Nat.eq_dec (distance w x) 0) as [D|D]; [apply M0 in D; subst x; exists u; split; [constructor|exact R1]|].
    destruct Iw as [<-|Iw]; [destruct D; apply M0; reflexivity|]. apply in_flat_map in Iw. destruct Iw as ([d c] & I & Iw). cbn [snd] in Iw. destruct (O2 d c I) as [O3 O4].
    destruct (IH d c I (R3 d c I) O4 Iw) as (v & S & E). exists v. split; [|exact E]. cbn [bid]. econstructor; [|exact S]. exists x. split; [exact R1|]. split; [exact D|].
    apply (child_delta g u x ch); [exact R|]. exists c. split; [|reflexivity]. rewrite (O3 w Iw). apply In_dget; assumption.
  Qed.

  Lemma elem_id g (t : bt) y : rep g t -> In y (elems t) -> exists i, In i (ids t) /\ dget (bk_element g) i = Some y.
  Proof.
    induction t as [u x ch IH] using bt_induction. intros R Iy. inversion R as [? ? ? R1 R2 R3]; subst. destruct Iy as [<-|Iy]; [exists u; split; [left; reflexivity|exact R1]|].
    apply in_flat_map in Iy. destruct Iy as ([d c] & I & Iy). destruct (IH d c I (R3 d c I) Iy) as (i & Ii & E). exists i. split; [right; apply in_flat_map; exists (d, c); auto|exact E].
  Qed.
  Lemma below_elems_okp P g (t : bt) : rep g t -> okp g P t -> forall y, below g (bid t) y <-> In y (elems t).
  Proof.
    induction t as [u x ch IH] using bt_induction. intros R O y. pose proof R as R'. inversion R' as [? ? ? R1 R2 R3]; subst. inversion O as [? ? ? O1 O2]; subst. cbn [bid elems]. split.
    - intros (v & S & E). inversion S as [|? m ? (d & D) S']; subst; [left; congruence|right].
      apply (child_delta g u x ch) in D; [|exact R]. destruct D as (c & G & ->). apply dget_In in G. apply in_flat_map. exists (d, c). split; [exact G|].
      apply (IH d c G (R3 d c G) (proj2 (O2 d c G))). exists v. auto.
    - intros [<-|I]; [exists u; split; [constructor|exact R1]|]. apply in_flat_map in I. destruct I as ([d c] & I & Iy).
      apply (IH d c I (R3 d c I) (proj2 (O2 d c I))) in Iy. destruct Iy as (v & S & E). exists v. split; [|exact E]. econstructor; [|exact S]. exists d.
      apply (child_delta g u x ch); [exact R|]. exists c. split; [apply In_dget; assumption|reflexivity].
  Qed.

  Lemma insert_from_spec l g u w fuel : built distance l g -> dget (bk_element g) u <> None -> length l < fuel ->
    exists g' v root, bk_root g = Some root /\ bk_root g' = Some root /\ bk_insert distance fuel g w (Some u) = Some (g', Ok v) /\ dget (bk_element g') v = Some w /\
      (forall i x, dget (bk_element g) i = Some x -> dget (bk_element g') i = Some x) /\
      (forall x, below g' root x <-> In x l \/ x = w) /\
      (forall w' d_max, exists r, bk_search distance fuel g' w' d_max None = Some (Ok r) /\
        match r with
        | Some (x, n) => (In x l \/ x = w) /\ n = distance w' x /\ n <= d_max /\ forall y, In y l -> n <= distance w' y
        | None => forall y, In y l -> d_max < distance w' y
        end /\ (w' = w -> d_max = 0 -> (r <> None <-> In w l \/ steps (on_way distance g w) root u))).
  Proof.
    intros Bg Eu L. destruct M as (M0 & _ & _). unfold built in Bg. unfold bk_insert. destruct (bk_root g) as [root|] eqn:RT; [|destruct Bg as [_ ->]; destruct (Eu eq_refl)].
    destruct Bg as (t & <- & R & O & N & B & E & LS & K). destruct (sub_at t u (K u Eu)) as (s & SB & <-). destruct (sub_facts distance g s t SB R O) as (Rs & Os & Ls).
    assert (Bs : forall u, In u (ids s) -> u < au_last (bk_aut g)) by (intros v I; apply B, (sub_ids s t SB v I)).
    destruct (descend_spec distance M w s g Rs Os (sub_NoDup s t SB N) Bs) as (g' & s' & v & H1 & H2 & _ & H4 & H5 & H6 & H7 & H8).
    specialize (H1 fuel ltac:(unfold sized in *; lia)). exists g', v, (bid t). split; [reflexivity|]. split; [congruence|]. split; [exact H1|]. split; [exact H7|].
    assert (TB := descend_tables w g fuel (bid s) g' v (fun q Hq => B q (K q Hq)) H1).
    assert (T : exists t' P, bid t' = bid t /\ rep g' t' /\ okp g' P t' /\ sized t' <= fuel /\ (forall x, In x (elems t') <-> In x l \/ x = w) /\
      (forall i x, dget (bk_element g) i = Some x -> dget (bk_element g') i = Some x /\ P i /\ In i (ids t'))).
    { destruct H8 as [(-> & _ & Iw)|(P1 & P2 & P3 & P4)].
      - exists t, (fun _ => True). split; [reflexivity|]. split; [exact R|]. split; [apply ok_okp; assumption|]. split; [unfold sized; lia|]. split.
        + intros x. rewrite E. split; [auto|]. intros [I|I]; [exact I|]. subst x. destruct (elem_id g s w Rs Iw) as (i & Ii & Ei). apply E, (elem_of_way g t i w R (sub_ids s t SB i Ii) Ei).
        + intros i x Ei. split; [exact Ei|]. split; [exact I|]. apply K. congruence.
      - destruct TB as [(-> & _)|(p & x & _ & _ & _ & _ & _ & Ev & _ & Hq & _)]; [lia|].
        assert (Hn : forall q, q <> au_last (bk_aut g) -> dget (bk_element g') q = dget (bk_element g) q) by (intros q Nq; rewrite Hq; destruct (eqb_spec q v); [congruence|reflexivity]).
        destruct (replace_spec w g g' s s' t SB R O N B H2 H4 H5 P1 P2 P4 Hn) as (t' & T1 & T2 & T3 & T4 & T5).
        exists t', (fun i => i <> au_last (bk_aut g)). split; [exact T1|]. split; [exact T2|]. split; [exact T3|]. split; [unfold sized; rewrite (Permutation_length T4); cbn; lia|]. split.
        + intros y. rewrite <- E. split; [intros I; apply (Permutation_in _ T5) in I; cbn in I; intuition|intros I; apply (Permutation_in _ (Permutation_sym T5)); cbn; intuition].
        + intros i y Ei. assert (Ii : In i (ids t)) by (apply K; congruence). assert (Ni : i <> au_last (bk_aut g)) by (specialize (B i Ii); lia).
          split; [rewrite Hn by exact Ni; exact Ei|]. split; [exact Ni|]. apply (Permutation_in _ (Permutation_sym T4)). right. exact Ii. }
    destruct T as (t' & P & T1 & T2 & T3 & T4 & T5 & T6). split; [intros i x Ei; apply T6, Ei|].
    split; [intros x; rewrite <- T1, (below_elems_okp P g' t' T2 T3); apply T5|].
    intros w' d_max. destruct (searchp_spec P w' g' fuel [t'] None d_max) as (wb & db & S1 & S2); [intros ? [<-|[]]; auto|unfold size_of; cbn; lia|].
    unfold bk_search. rewrite H6, RT, <- T1. cbn [map] in S1. rewrite S1. cbn [flat_map] in S2. rewrite app_nil_r in S2.
    assert (LP : forall y, In y l -> exists i, In i (ids t') /\ P i /\ dget (bk_element g') i = Some y).
    { intros y Iy. apply E, (elem_id g t y R) in Iy. destruct Iy as (i & _ & Ei). destruct (T6 i y Ei) as (? & ? & ?). exists i. auto. }
    exists (match wb with Some x => Some (x, db) | None => None end). split; [destruct wb; reflexivity|]. split.
    - destruct S2 as [(-> & -> & S2)|(i & y & Ii & Ei & -> & -> & Ly & S2)].
      + intros y Iy. destruct (LP y Iy) as (i & I1 & I2 & I3). apply (S2 i y I1 I2 I3).
      + split; [apply T5, (elem_of_way g' t' i y T2 Ii Ei)|]. split; [reflexivity|]. split; [exact Ly|]. intros z Iz. destruct (LP z Iz) as (j & I1 & I2 & I3). apply (S2 j z I1 I2 I3).
    - intros -> ->. assert (S3 : wb <> None <-> exists q, steps (on_way distance g' w) (bid t') q /\ dget (bk_element g') q = Some w).
      { etransitivity; [apply (search0_spec P w g' fuel [t'] None wb db); [intros ? [<-|[]]; auto|exact S1]|]. split.
        - intros [Hn|(? & q & [<-|[]] & Sq)]; [destruct (Hn eq_refl)|exists q; exact Sq].
        - intros (q & Sq). right. exists t', q. split; [left; reflexivity|exact Sq]. }
      assert (S4 : (match wb with Some x => Some (x, db) | None => None end) <> None <-> wb <> None) by (destruct wb; split; congruence). rewrite S4, S3, T1. clear S1 S2 S3 S4.
      assert (LIFT : forall a b, steps (on_way distance g w) a b -> steps (on_way distance g' w) a b).
      { induction 1 as [a|a m b (x & E1 & E2 & E3) S IH]; [constructor|]. econstructor; [|exact IH]. exists x. split; [apply T6, E1|]. split; [exact E2|].
        destruct TB as [(-> & _)|(p & x' & _ & G1 & _ & G2 & _ & Ev & _ & Hq & Hd)]; [exact E3|]. rewrite Hd. destruct (eqb_spec a p) as [->|Np]; cbn [andb].
        - replace x with x' in * by congruence. congruence.
        - destruct (eqb_spec a v) as [->|_]; [|exact E3]. assert (In v (ids t)) by (apply K; congruence). specialize (B v ltac:(assumption)). lia. }
      split.
      + intros (q & Sq & Eq). destruct TB as [(-> & _)|(p & x & Sp & G1 & G0 & G2 & _ & Ev & _ & Hq & Hd)].
        * left. apply E, (elem_of_way g t q w R); [apply K; congruence|exact Eq].
        * rewrite Hq in Eq. destruct (eqb_spec q v) as [->|Nq]; [|left; apply E, (elem_of_way g t q w R); [apply K; congruence|exact Eq]].
          right. apply (way_above g w t (bid s) p R N); [apply K; exact Eu|exact Sp|].
          assert (Iv : ~ In v (ids t)) by (intros I; specialize (B v I); lia).
          assert (I : In (bid t) (ids t)) by (destruct t; left; reflexivity). revert I Sq. generalize (bid t) as a. clear -Hd G1 Iv R Hq. intros a I Sq.
          induction Sq as [b|a m b (y & E1 & E2 & E3) S IH]; [contradiction|]. assert (Na : a <> b) by congruence. rewrite Hd in E3. rewrite Hq in E1. destruct (eqb_spec a b) as [|_]; [contradiction|].
          destruct (eqb_spec a p) as [->|Np]; [constructor|]. cbn [andb] in E3. assert (W : on_way distance g w a m) by (exists y; auto).
          econstructor; [exact W|]. apply IH; [exact Hq|exact Hd|exact Iv|]. apply (on_way_in g w t R a m I W).
      + intros [Iw|Sr].
        * destruct (way_of_elem g w t R O) as (q & S & Eq); [apply E, Iw|]. exists q. split; [apply LIFT, S|apply T6, Eq].
        * destruct TB as [(-> & x & Ex & D & Sv)|(p & x & Sp & G1 & G0 & G2 & _ & Ev & _ & Hq & Hd)].
          -- exists v. split; [|exact H7]. clear -Sr Sv. induction Sr as [|a m b W S IH]; [exact Sv|]. econstructor; [exact W|apply IH, Sv].
          -- exists v. split; [|exact H7]. assert (W : steps (on_way distance g' w) p v).
             { econstructor; [|constructor]. exists x. split; [apply T6, G1|]. split; [exact G0|]. rewrite Hd, !eqb_refl. reflexivity. }
             apply LIFT in Sr. apply LIFT in Sp. clear -Sr Sp W. induction Sr as [|a m b W' S IH]; [|econstructor; [exact W'|apply IH, Sp]].
             induction Sp as [|a m b W' S IH]; [exact W|]. econstructor; [exact W'|apply IH, W].
  Qed.
End T.
