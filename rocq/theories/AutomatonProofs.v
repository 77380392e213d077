(** Refinement of Automaton by the abstract machine of AutomatonSpec. *)
From Verif Require Import Base BaseProofs Graph GraphProofs Automaton AutomatonSpec.

#[local] Arguments dkeys : simpl never.

Section P.
  Context {A : Type} {EA : EqDec A}.
  Notation tadj := (dict nat (dict A nat)).

  Definition tr (m : tadj) (q : nat) (a : A) : option nat :=
    match dget m q with None => None | Some d => dget d a end.
  Definition twf (m : tadj) : Prop :=
    NoDup (dkeys m) /\ forall q d, dget m q = Some d -> NoDup (dkeys d).
  Definition tedges (m : tadj) : list (edge A) :=
    flat_map (fun '(q, d) => map (fun '(a, r) => Edge q r a) d) m.

  Lemma same_key_spec q a (e : edge A) : reflect (source e = q /\ distinguisher e = a) (same_key q a e).
  Proof.
    unfold same_key. destruct (Nat.eqb_spec (source e) q); cbn; [|constructor; tauto].
    destruct (eqb_spec (distinguisher e) a); constructor; tauto.
  Qed.

  Lemma In_tedges m q r a : twf m -> (In (Edge q r a) (tedges m) <-> tr m q a = Some r).
  Proof.
    intros [N D]. unfold tedges, tr. rewrite in_flat_map. split.
    - intros ((q' & d) & I & J). apply in_map_iff in J. destruct J as ((a' & r') & E & J).
      injection E as -> -> ->. apply In_dget in I; [|exact N]. rewrite I.
      apply In_dget; [|exact J]. eapply D; exact I.
    - destruct (dget m q) as [d|] eqn:E; [|discriminate]. intros G.
      exists (q, d). split; [apply dget_In; exact E|]. apply in_map_iff. exists (a, r).
      split; [reflexivity | apply dget_In; exact G].
  Qed.

  Lemma NoDup_dict {K V} (d : dict K V) : NoDup (dkeys d) -> NoDup d.
  Proof. intros N. apply (NoDup_map_inv fst). exact N. Qed.

  Lemma NoDup_tedges m : twf m -> NoDup (tedges m).
  Proof.
    intros [N D]. unfold tedges. apply NoDup_flat_map.
    - apply NoDup_dict. exact N.
    - intros (q & d) I. apply In_dget in I; [|exact N]. apply D in I.
      apply NoDup_map_inj_in; [apply NoDup_dict; exact I|].
      intros (a & r) (a' & r') _ _ E. injection E as -> ->. reflexivity.
    - intros (q & d) (q' & d') e I I' J J'. apply in_map_iff in J, J'.
      destruct J as ((a & r) & <- & J), J' as ((a' & r') & E & J'). injection E as -> -> ->.
      apply In_dget in I; [|exact N]. apply In_dget in I'; [|exact N]. congruence.
  Qed.

  Lemma tr_dset m q d q' a : tr (dset m q d) q' a = if eqb q' q then dget d a else tr m q' a.
  Proof. unfold tr. rewrite dget_dset. destruct (eqb q' q); reflexivity. Qed.
  Lemma tr_ddel m q q' a : NoDup (dkeys m) -> tr (ddel m q) q' a = if eqb q' q then None else tr m q' a.
  Proof. intros N. unfold tr. rewrite dget_ddel by exact N. destruct (eqb q' q); reflexivity. Qed.
  Lemma twf_dset m q d : twf m -> NoDup (dkeys d) -> twf (dset m q d).
  Proof.
    intros [N D] Nd. split; [apply NoDup_dset; exact N|]. intros q' d'. rewrite dget_dset.
    destruct (eqb q' q); [intros [= <-]; exact Nd | apply D].
  Qed.
  Lemma twf_ddel m q : twf m -> twf (ddel m q).
  Proof.
    intros [N D]. split; [apply NoDup_ddel; exact N|]. intros q' d'. rewrite dget_ddel by exact N.
    destruct (eqb q' q); [discriminate | apply D].
  Qed.

  (** Removing the transition of key (q, a). *)
  Definition g_with (g : aut A) (m : tadj) : aut A := mkAut (au_last g) m (au_q0 g) (au_final g).

  Lemma remove_edge_spec g e : twf (au_adj g) ->
    exists m, A_remove_edge g e = (g_with g m, Ok tt) /\ twf m /\ dkeys m = dkeys (au_adj g) /\
      forall q a, tr m q a = if same_key q a e then None else tr (au_adj g) q a.
  Proof.
    intros W. pose proof W as [N D]. unfold A_remove_edge.
    assert (Hid : g = g_with g (au_adj g)) by (destruct g; reflexivity).
    destruct (dget (au_adj g) (source e)) as [d|] eqn:E.
    - destruct (dmem d (distinguisher e)) eqn:M.
      + eexists. split; [reflexivity|]. split; [|split].
        * apply twf_dset; [exact W | apply NoDup_ddel; eapply D; exact E].
        * apply dkeys_dset_old. eapply dget_Some_key; exact E.
        * intros q a. rewrite tr_dset. unfold same_key.
          destruct (eqb_spec q (source e)) as [->|Nq].
          -- rewrite Nat.eqb_refl. cbn. rewrite dget_ddel by (eapply D; exact E).
             destruct (eqb_spec a (distinguisher e)) as [->|Na].
             ++ rewrite eqb_refl. reflexivity.
             ++ assert (Z : eqb (distinguisher e) a = false) by (apply eqb_neq; congruence). rewrite Z.
                unfold tr. rewrite E. reflexivity.
          -- destruct (Nat.eqb_spec (source e) q); [congruence|]. reflexivity.
      + exists (au_adj g). rewrite <- Hid. split; [reflexivity|]. split; [exact W|]. split; [reflexivity|].
        intros q a. destruct (same_key_spec q a e) as [[<- <-]|]; [|reflexivity].
        unfold tr. rewrite E. apply dget_None. apply dmem_false. exact M.
    - exists (au_adj g). rewrite <- Hid. split; [reflexivity|]. split; [exact W|]. split; [reflexivity|].
      intros q a. destruct (same_key_spec q a e) as [[<- <-]|]; [|reflexivity].
      unfold tr. rewrite E. reflexivity.
  Qed.

  Lemma remove_edges_spec (c : edge A -> bool) L : forall g, twf (au_adj g) ->
    exists m, foreach (fun g e => if c e then A_remove_edge g e else (g, Ok tt)) g L = (g_with g m, Ok tt) /\
      twf m /\ dkeys m = dkeys (au_adj g) /\
      forall q a, tr m q a = if existsb (fun e => c e && same_key q a e) L then None else tr (au_adj g) q a.
  Proof.
    induction L as [|e L IH]; intros g W; cbn.
    - exists (au_adj g). destruct g; cbn. auto.
    - destruct (c e).
      + destruct (remove_edge_spec g e W) as (m & -> & Wm & K & T).
        destruct (IH (g_with g m) Wm) as (m' & -> & Wm' & K' & T').
        exists m'. split; [reflexivity|]. split; [exact Wm'|]. split; [rewrite <- K; exact K'|].
        intros q a. rewrite T'. cbn. rewrite T.
        destruct (same_key q a e); cbn; [destruct existsb; reflexivity | reflexivity].
      + destruct (IH g W) as (m' & -> & Wm' & K' & T').
        exists m'. split; [reflexivity|]. split; [exact Wm'|]. split; [congruence|].
        intros q a. rewrite T'. reflexivity.
  Qed.

  Lemma remove_vertex_spec g u : twf (au_adj g) ->
    exists m, twf m /\
      A_remove_vertex g u =
        (g_with g m, if mem u (dkeys (au_adj g)) then Ok tt else Raise KeyError) /\
      dkeys m = filter (fun v => negb (v =? u)) (dkeys (au_adj g)) /\
      forall q a r, tr m q a = Some r <-> tr (au_adj g) q a = Some r /\ q <> u /\ r <> u.
  Proof.
    intros W. unfold A_remove_vertex.
    destruct (remove_edges_spec (fun e => u =? target e) (A_edges g) g W) as (m1 & E1 & W1 & K1 & T1).
    match goal with |- context [foreach ?f g _] => change f with
      (fun (g : aut A) (e : edge A) => if u =? target e then A_remove_edge g e else (g, Ok tt)) end.
    rewrite E1.
    destruct (remove_edges_spec (fun _ => true) (A_out_edges (g_with g m1) u) (g_with g m1) W1)
      as (m2 & E2 & W2 & K2 & T2).
    cbv beta iota in E2. change (fun (g : aut A) (e : edge A) => A_remove_edge g e) with (@A_remove_edge A EA) in E2.
    rewrite E2. cbn in K2.
    assert (F1 : forall q a r, tr m1 q a = Some r <-> tr (au_adj g) q a = Some r /\ r <> u).
    { intros q a r. rewrite T1. destruct existsb eqn:B.
      - apply existsb_exists in B. destruct B as ([q' r' a'] & I & B).
        apply andb_true_iff in B. destruct B as [B1 B2]. cbn in B1. apply Nat.eqb_eq in B1. subst r'.
        destruct (same_key_spec q a (Edge q' u a')) as [[X Y]|]; [|discriminate]. cbn in X, Y. subst q' a'.
        change (A_edges g) with (tedges (au_adj g)) in I. apply (In_tedges _ _ _ _ W) in I.
        rewrite I. split; [discriminate|]. intros [[= <-] Z]. congruence.
      - split; [|tauto]. intros E. split; [exact E|]. intros ->.
        apply not_true_iff_false in B. apply B. apply existsb_exists.
        exists (Edge q u a). change (A_edges g) with (tedges (au_adj g)).
        split; [apply In_tedges; assumption|]. cbn. rewrite Nat.eqb_refl. cbn.
        destruct (same_key_spec q a (Edge q u a)); [reflexivity|]. cbn in *. tauto. }
    assert (F2 : forall q a r, tr m2 q a = Some r <-> tr m1 q a = Some r /\ q <> u).
    { intros q a r. rewrite T2. destruct existsb eqn:B.
      - apply existsb_exists in B. destruct B as ([q' r' a'] & I & B). cbn [andb] in B.
        destruct (same_key_spec q a (Edge q' r' a')) as [[X Y]|]; [|discriminate]. cbn in X, Y. subst q' a'.
        unfold A_out_edges in I. cbn in I. destruct (dget m1 u) as [d|]; [|contradiction].
        apply in_map_iff in I. destruct I as ((a' & r'') & [= -> -> ->] & I). split; [discriminate|tauto].
      - cbn. split; [|tauto]. intros E. split; [exact E|]. intros ->.
        apply not_true_iff_false in B. apply B. apply existsb_exists.
        unfold tr in E. unfold A_out_edges. cbn. destruct (dget m1 u) as [d|]; [|discriminate].
        exists (Edge u r a). split.
        + apply in_map_iff. exists (a, r). split; [reflexivity | apply dget_In; exact E].
        + destruct (same_key_spec u a (Edge u r a)); [reflexivity|]. cbn in *. tauto. }
    cbn [au_adj g_with].
    assert (KK : dkeys m2 = dkeys (au_adj g)) by congruence.
    destruct (dmem m2 u) eqn:M.
    - exists (ddel m2 u). split; [apply twf_ddel; exact W2|].
      apply dmem_spec in M. rewrite KK in M. apply mem_spec in M. rewrite M.
      split; [reflexivity|]. split.
      + rewrite dkeys_ddel by apply W2. rewrite KK. unfold srem. apply filter_ext. intros v.
        f_equal. destruct (eqb_spec u v), (Nat.eqb_spec v u); congruence.
      + intros q a r. rewrite tr_ddel by apply W2. destruct (eqb_spec q u) as [->|Nq].
        * split; [discriminate | tauto].
        * rewrite F2, F1. tauto.
    - exists m2. split; [exact W2|]. apply dmem_false in M. rewrite KK in M.
      destruct (mem_reflect u (dkeys (au_adj g))); [contradiction|]. split; [reflexivity|]. split.
      + rewrite KK. symmetry. apply filter_id. intros v I. destruct (Nat.eqb_spec v u); [congruence|reflexivity].
      + intros q a r. rewrite F2, F1. tauto.
  Qed.

  Definition trep (m : tadj) (T : list (edge A)) : Prop :=
    NoDup T /\ forall q r a, In (Edge q r a) T <-> tr m q a = Some r.

  Lemma trep_lookup m T q a : trep m T -> lookup T q a = tr m q a.
  Proof.
    intros [N R]. unfold lookup. destruct (find (same_key q a) T) as [[q' r a']|] eqn:F; cbn.
    - apply find_some in F. destruct F as [I F]. destruct (same_key_spec q a (Edge q' r a')) as [[X Y]|]; [|discriminate].
      cbn in X, Y. subst. symmetry. apply R. exact I.
    - destruct (tr m q a) as [r|] eqn:E; [|reflexivity]. exfalso. apply R in E.
      apply (find_none _ _ F) in E. destruct (same_key_spec q a (Edge q r a)); [discriminate|]. cbn in *. tauto.
  Qed.

  Lemma trep_perm m T : twf m -> trep m T -> Permutation (tedges m) T.
  Proof.
    intros W [N R]. apply NoDup_Permutation; [apply NoDup_tedges; exact W | exact N|].
    intros [q r a]. rewrite R. apply In_tedges. exact W.
  Qed.

  Lemma In_drop_key q a T e : In e (drop_key q a T) <-> In e T /\ ~ (source e = q /\ distinguisher e = a).
  Proof.
    unfold drop_key. rewrite filter_In. destruct (same_key_spec q a e); cbn; intuition discriminate.
  Qed.

  Definition arep (g : aut A) (s : aaut A) : Prop :=
    au_last g = aa_next s /\ dkeys (au_adj g) = aa_V s /\ twf (au_adj g) /\ trep (au_adj g) (aa_T s) /\
    au_q0 g = aa_q0 s /\ (forall q, au_final g q = aa_final s q) /\ (forall v, In v (aa_V s) -> v < aa_next s).

  Lemma add_vertex_rep m T k : twf m -> trep m T -> ~ In k (dkeys m) ->
    twf (dset m k []) /\ trep (dset m k []) T /\ dkeys (dset m k []) = dkeys m ++ [k].
  Proof.
    intros W [NT R] NI. split; [|split].
    - apply twf_dset; [exact W|constructor].
    - split; [exact NT|]. intros q r a. rewrite tr_dset. rewrite R. destruct (eqb_spec q k) as [->|]; [|tauto].
      unfold tr. rewrite (proj2 (dget_None m k) NI). tauto.
    - apply dkeys_dset_new. exact NI.
  Qed.

  Lemma trep_remove m T m' q0 a0 :
    trep m T -> (forall q a, tr m' q a = if same_key q a (Edge q0 0 a0) then None else tr m q a) ->
    trep m' (drop_key q0 a0 T).
  Proof.
    intros [NT R] E. split; [apply NoDup_filter; exact NT|].
    intros q r a. rewrite In_drop_key, R, E. cbn.
    destruct (same_key_spec q a (Edge q0 0 a0)) as [[X Y]|N]; cbn in *.
    - subst. split; [tauto|discriminate].
    - split; [tauto|]. intros X. split; [exact X|]. intros [-> ->]. apply N. auto.
  Qed.

  Lemma trep_set m T q r a d :
    twf m -> trep m T -> dget m q = Some d ->
    twf (dset m q (dset d a r)) /\ trep (dset m q (dset d a r)) (drop_key q a T ++ [Edge q r a]) /\
    dkeys (dset m q (dset d a r)) = dkeys m.
  Proof.
    intros W [NT R] E. split; [|split].
    - apply twf_dset; [exact W|]. apply NoDup_dset. eapply W. exact E.
    - split.
      + apply NoDup_app_intro; [apply NoDup_filter; exact NT | constructor; [tauto|constructor]|].
        intros e I [<-|[]]. apply In_drop_key in I. cbn in I. tauto.
      + intros q' r' a'. rewrite in_app_iff, In_drop_key, R. cbn. rewrite tr_dset.
        destruct (eqb_spec q' q) as [->|Nq].
        * rewrite dget_dset. destruct (eqb_spec a' a) as [->|Na].
          -- split; [intros [[_ X]|[[= ->]|[]]]; [tauto|reflexivity] | intros [= ->]; right; left; reflexivity].
          -- unfold tr. rewrite E. split; [intros [[X _]|[[= _ X]|[]]]; [exact X|congruence]|].
             intros X. left. split; [exact X|]. tauto.
        * split; [intros [[X _]|[[= X]|[]]]; [exact X|congruence]|]. intros X. left. split; [exact X|]. tauto.
    - apply dkeys_dset_old. eapply dget_Some_key. exact E.
  Qed.

  Lemma trep_drop_incident m T m' u : trep m T ->
    (forall q a r, tr m' q a = Some r <-> tr m q a = Some r /\ q <> u /\ r <> u) ->
    trep m' (drop_incident u T).
  Proof.
    intros [NT R] E. split; [apply NoDup_filter; exact NT|].
    intros q r a. unfold drop_incident. rewrite filter_In, R, E. cbn.
    destruct (Nat.eqb_spec q u), (Nat.eqb_spec r u); cbn; intuition congruence.
  Qed.

  Lemma clear_aux L : forall g, twf (au_adj g) -> NoDup L -> (forall v, In v L -> In v (dkeys (au_adj g))) ->
    exists m, foreach A_remove_vertex g L = (g_with g m, Ok tt) /\ twf m /\
      dkeys m = filter (fun v => negb (mem v L)) (dkeys (au_adj g)).
  Proof.
    induction L as [|u L IH]; intros g W ND I; cbn.
    - exists (au_adj g). split; [destruct g; reflexivity|]. split; [exact W|]. symmetry. apply filter_id. reflexivity.
    - destruct (remove_vertex_spec g u W) as (m & Wm & -> & K & _).
      assert (M : mem u (dkeys (au_adj g)) = true) by (apply mem_spec; apply I; left; reflexivity).
      rewrite M. inversion ND as [|? ? NI ND']; subst.
      destruct (IH (g_with g m) Wm ND') as (m' & -> & Wm' & K').
      { cbn. intros v Iv. rewrite K. apply filter_In. split; [apply I; right; exact Iv|].
        destruct (Nat.eqb_spec v u); [subst; contradiction|reflexivity]. }
      exists m'. split; [reflexivity|]. split; [exact Wm'|]. rewrite K'. cbn. rewrite K.
      clear. induction (dkeys (au_adj g)) as [|x l IH]; cbn; [reflexivity|].
      destruct (Nat.eqb_spec x u) as [->|N]; cbn.
      + rewrite eqb_refl. cbn. exact IH.
      + destruct (eqb_spec x u) as [->|]; [congruence|]. cbn. unfold mem in *.
        destruct (existsb (eqb x) L); cbn; [exact IH | f_equal; exact IH].
  Qed.

  Lemma A_step g s op : arep g s ->
    arep (fst (A_call g op)) (fst (aa_step s op)) /\ snd (A_call g op) = snd (aa_step s op).
  Proof.
    destruct s as [k V T q0 f]. intros (L & KV & W & R & Q & F & LT). cbn in *.
    destruct op as [|q r a|e|u|q b|q b|]; cbn.
    - assert (NI : ~ In (au_last g) (dkeys (au_adj g))) by (rewrite KV, L; intros I; apply LT in I; lia).
      destruct (add_vertex_rep _ _ _ W R NI) as (W' & R' & K').
      split; [|f_equal; exact L]. unfold arep; cbn. rewrite L, K' in *. repeat split; try tauto; try apply W'; try apply R'.
      + rewrite KV. reflexivity.
      + intros v I. apply in_app_iff in I. destruct I as [I|[<-|[]]]; [apply LT in I|]; lia.
    - unfold A_add_edge, A_delta. rewrite (trep_lookup _ _ q a R). unfold tr.
      assert (Hid : arep g (AA k V T q0 f)) by (unfold arep; cbn; tauto).
      destruct (dget (au_adj g) q) as [d|] eqn:E.
      + assert (M : mem q V = true) by (apply mem_spec; rewrite <- KV; eapply dget_Some_key; exact E).
        destruct (trep_set _ _ q r a d W R E) as (W' & R' & K').
        assert (G : arep (mkAut (au_last g) (dset (au_adj g) q (dset d a r)) (au_q0 g) (au_final g))
            (AA k V (drop_key q a T ++ [Edge q r a]) q0 f)).
        { unfold arep; cbn. rewrite K'. repeat split; try tauto; try apply W'; apply R'. }
        destruct (dget d a) as [[|x]|]; cbn; rewrite ?M; split; auto.
      + assert (M : mem q V = false) by (apply mem_false; rewrite <- KV; apply dget_None; exact E).
        cbn. rewrite M. split; auto.
    - destruct (remove_edge_spec g e W) as (m & -> & Wm & K & Tm). cbn. split; [|reflexivity].
      assert (R' : trep m (drop_key (source e) (distinguisher e) T)).
      { eapply trep_remove; [exact R|]. intros q a. rewrite Tm. reflexivity. }
      unfold arep; cbn. rewrite K. repeat split; try tauto; try apply Wm; apply R'.
    - destruct (remove_vertex_spec g u W) as (m & Wm & -> & K & Tm). cbn. rewrite KV in *.
      pose proof (trep_drop_incident _ _ _ u R Tm) as R'.
      destruct (mem_reflect u V) as [I|NI]; cbn; (split; [|reflexivity]); unfold arep; cbn.
      + repeat split; try tauto; try apply Wm; try apply R'.
        intros v Iv. apply filter_In in Iv. apply LT. tauto.
      + assert (KF : filter (fun v => negb (v =? u)) V = V).
        { apply filter_id. intros v Iv. destruct (Nat.eqb_spec v u); [congruence|reflexivity]. }
        rewrite KF in K.
        assert (RI : trep m (drop_into u T)).
        { split; [apply NoDup_filter; apply R|]. intros q r a. unfold drop_into. rewrite filter_In, Tm, (proj2 R). cbn.
          destruct (Nat.eqb_spec r u); cbn; [intuition congruence|].
          split; [|tauto]. intros [X _]. split; [exact X|]. split; [|exact n].
          intros ->. unfold tr in X. destruct (dget (au_adj g) u) eqn:E; [|discriminate].
          apply dget_Some_key in E. rewrite KV in E. contradiction. }
        repeat split; try tauto; try apply Wm; apply RI.
    - split; [|reflexivity]. unfold arep, A_set_initial; cbn. rewrite Q. repeat split; try tauto; try apply W; apply R.
    - split; [|reflexivity]. unfold arep, A_set_final; cbn. repeat split; try tauto; try apply W; try apply R.
      intros x. rewrite F. destruct (eqb_spec x q), (Nat.eqb_spec x q); congruence.
    - unfold A_clear. cbn.
      destruct (clear_aux (dkeys (au_adj g)) (mkAut 0 (au_adj g) (au_q0 g) (au_final g)) W) as (m & E & Wm & K).
      + apply W.
      + cbn. tauto.
      + cbn in E. unfold A_vertices. cbn. rewrite E. cbn. split; [|reflexivity].
        assert (Km : dkeys m = []).
        { rewrite K. cbn. assert (G : forall l, (forall x, In x l -> In x (dkeys (au_adj g))) ->
              filter (fun v => negb (mem v (dkeys (au_adj g)))) l = []).
          { induction l as [|x l IH]; cbn; intros Hl; [reflexivity|].
            destruct (mem_reflect x (dkeys (au_adj g))) as [I|NI]; cbn.
            - apply IH. intros y Iy. apply Hl. right. exact Iy.
            - exfalso. apply NI, Hl. left. reflexivity. }
          apply G. tauto. }
        destruct m as [|[]]; [|discriminate Km].
        unfold arep; cbn. repeat split; try tauto; try apply Wm; try constructor.
        * intros [].
        * discriminate.
  Qed.

  Lemma runs_refine {S S' Op Out} (call : S -> Op -> S * Out) (step : S' -> Op -> S' * Out) (R : S -> S' -> Prop) :
    (forall s a op, R s a -> R (fst (call s op)) (fst (step a op)) /\ snd (call s op) = snd (step a op)) ->
    forall ops s a, R s a ->
      R (fst (runs call s ops)) (fst (runs step a ops)) /\ snd (runs call s ops) = snd (runs step a ops).
  Proof.
    intros Hs. induction ops as [|op ops IH]; intros s a Rs; cbn; [tauto|].
    specialize (Hs s a op Rs). destruct (call s op) as [s1 o], (step a op) as [a1 o']. cbn in Hs.
    destruct Hs as [Rs1 <-]. specialize (IH s1 a1 Rs1).
    destruct (runs call s1 ops) as [s2 os], (runs step a1 ops) as [a2 os']. cbn in *.
    destruct IH as [? ->]. tauto.
  Qed.

  Lemma arep_add_vertices n : forall g k, arep g (AA k (seq 0 k) [] (Some 0) (fun _ => false)) ->
    arep (A_add_vertices n g) (AA (n + k) (seq 0 (n + k)) [] (Some 0) (fun _ => false)).
  Proof.
    induction n as [|n IH]; intros g k R; [exact R|]. replace (S n + k) with (n + S k) by lia. cbn [A_add_vertices].
    apply (A_step _ _ AAddVertex) in R. destruct R as [R _]. cbn in R.
    change (seq 0 k ++ [k]) with (seq 0 k ++ [0 + k]) in R. rewrite <- (seq_S k 0) in R. apply IH in R. 
    exact R.
  Qed.

  Lemma arep_init n : arep (A_init n) (aa_init n).
  Proof.
    unfold A_init, aa_init. rewrite <- (Nat.add_0_r n) at 2 3. apply arep_add_vertices.
    unfold arep; cbn. repeat split; try constructor; try discriminate; try tauto.
    intros [].
  Qed.

  Lemma arep_runs n ops : arep (fst (runs A_call (A_init n) ops)) (fst (runs aa_step (aa_init n) ops)) /\
    snd (runs A_call (A_init n) ops) = snd (runs aa_step (aa_init n) ops).
  Proof. apply runs_refine; [|apply arep_init]. intros. apply A_step. assumption. Qed.

  (** Observations. *)
  Lemma out_edges_filter m q : NoDup (dkeys m) ->
    (match dget m q with None => [] | Some d => map (fun '(a, r) => Edge q r a) d end)
    = filter (fun e => source e =? q) (tedges m).
  Proof.
    induction m as [|[q' d] m IH]; cbn; intros N; [reflexivity|].
    inversion N as [|? ? NI N']; subst. rewrite filter_app. match goal with |- context [filter _ (flat_map _ m)] => fold (tedges m) end. rewrite <- IH by exact N'.
    assert (G : filter (fun e => source e =? q) (map (fun '(a, r) => Edge q' r a) d) =
                if q' =? q then map (fun '(a, r) => Edge q' r a) d else []).
    { clear. induction d as [|[a r] d IH]; cbn; [destruct (q' =? q); reflexivity|].
      rewrite IH. destruct (q' =? q); reflexivity. }
    rewrite G. destruct (eqb_spec q q') as [->|Nq].
    - rewrite Nat.eqb_refl. rewrite (proj2 (dget_None m q') NI). rewrite app_nil_r. reflexivity.
    - destruct (Nat.eqb_spec q' q); [congruence|]. reflexivity.
  Qed.

  Lemma set_eqb_spec (s t : list A) : set_eqb s t = true <-> (forall x, In x s <-> In x t).
  Proof.
    unfold set_eqb. rewrite andb_true_iff, !forallb_forall. split.
    - intros [H1 H2] x. split; intros I; apply mem_spec; auto.
    - intros E. split; intros x I; apply mem_spec; apply E; exact I.
  Qed.

  Section Obs.
    Variables (g : aut A) (s : aaut A).
    Hypothesis R : arep g s.

    Lemma obs_edges : Permutation (A_edges g) (aa_T s).
    Proof. apply trep_perm; apply R. Qed.
    Lemma obs_vertices : A_vertices g = aa_V s.
    Proof. apply R. Qed.
    Lemma obs_out q : Permutation (A_out_edges g q) (filter (fun e => source e =? q) (aa_T s)).
    Proof.
      unfold A_out_edges. rewrite out_edges_filter by apply R. apply filter_perm. apply obs_edges.
    Qed.
    Lemma obs_delta q a : A_delta g q a = lookup (aa_T s) q a.
    Proof. symmetry. apply trep_lookup. apply R. Qed.
    Lemma obs_delta_edges q a r : A_delta g q a = Some r <-> In (Edge q r a) (A_edges g).
    Proof. symmetry. apply In_tedges. apply R. Qed.
    Lemma obs_edge q r a : A_edge g q r a = if mem (Edge q r a) (aa_T s) then (Some (Edge q r a), true) else (None, false).
    Proof.
      unfold A_edge. destruct (mem_reflect (Edge q r a) (aa_T s)) as [I|NI].
      - assert (E : A_delta g q a = Some r) by (apply (proj2 (proj1 (proj2 (proj2 (proj2 R))))); exact I).
        rewrite E, eqb_refl. reflexivity.
      - destruct (eqb_spec (Some r) (A_delta g q a)) as [E|]; [|reflexivity].
        exfalso. apply NI. apply (proj2 (proj1 (proj2 (proj2 (proj2 R))))). symmetry. exact E.
    Qed.
    Lemma obs_sigma q a : In a (A_sigma g (Some q)) <-> exists r, In (Edge q r a) (aa_T s).
    Proof.
      unfold A_sigma. destruct R as (_ & _ & W & [_ T] & _). split.
      - destruct (dget (au_adj g) q) as [d|] eqn:E; [|intros []]. rewrite In_sof. intros I.
        apply key_dget in I. destruct I as (r & I). exists r. apply T. unfold tr. rewrite E. exact I.
      - intros (r & I). apply T in I. unfold tr in I. destruct (dget (au_adj g) q) as [d|]; [|discriminate].
        apply In_sof. eapply dget_Some_key. exact I.
    Qed.
    Lemma obs_sigma_nodup q : NoDup (A_sigma g q).
    Proof. destruct q as [q|]; cbn; [destruct (dget (au_adj g) q); [apply NoDup_sof|constructor]|constructor]. Qed.
    Lemma obs_alphabet a : In a (A_alphabet g) <-> exists q r, In (Edge q r a) (aa_T s).
    Proof.
      unfold A_alphabet. rewrite In_sof, in_flat_map. destruct R as (_ & _ & W & [_ T] & _). split.
      - intros (q & I & J). destruct (dget (au_adj g) q) as [d|] eqn:E; [|destruct J].
        apply key_dget in J. destruct J as (r & J). exists q, r. apply T. unfold tr. rewrite E. exact J.
      - intros (q & r & I). exists q. apply T in I. unfold tr in I.
        destruct (dget (au_adj g) q) as [d|] eqn:E; [|discriminate].
        split; [eapply dget_Some_key; exact E | eapply dget_Some_key; exact I].
    Qed.
    Lemma obs_alphabet_nodup : NoDup (A_alphabet g).
    Proof. apply NoDup_sof. Qed.
    Lemma obs_finals : A_finals g = filter (aa_final s) (aa_V s).
    Proof.
      unfold A_finals. rewrite obs_vertices. apply filter_ext. intros q. apply R.
    Qed.
    Lemma obs_complete : A_is_complete g = true <->
      forall q a, In q (aa_V s) -> (exists p r, In (Edge p r a) (aa_T s)) -> exists r, In (Edge q r a) (aa_T s).
    Proof.
      unfold A_is_complete. rewrite forallb_forall, obs_vertices. split.
      - intros F q a I X. apply F in I. rewrite set_eqb_spec in I. apply obs_sigma. apply I. apply obs_alphabet. exact X.
      - intros F q I. apply set_eqb_spec. intros a. rewrite obs_sigma, obs_alphabet. split.
        + intros (r & Ir). eauto.
        + intros X. apply F; assumption.
    Qed.

    (** Paths. *)
    Lemma delta_word_path w : forall q r, A_delta_word g (Some q) w = Some r <-> path (A_edges g) q w r.
    Proof.
      induction w as [|a w IH]; intros q r; cbn.
      - split; [intros [= ->]; constructor | inversion 1; reflexivity].
      - split.
        + intros E. destruct (A_delta g q a) as [q'|] eqn:D; [|destruct w; discriminate].
          apply IH in E. econstructor; [|exact E]. apply obs_delta_edges. exact D.
        + inversion 1 as [|? ? q' ? ? I P]; subst. apply obs_delta_edges in I. rewrite I. apply IH. exact P.
    Qed.
    Lemma accepts_path w : A_accepts g w = true <->
      exists q0 r, A_initial g = Some q0 /\ path (A_edges g) q0 w r /\ A_is_final g r = true.
    Proof.
      unfold A_accepts. split.
      - destruct (A_delta_word g (A_initial g) w) as [r|] eqn:E; [|discriminate]. intros F.
        destruct (A_initial g) as [q0|]; [|destruct w; discriminate].
        exists q0, r. apply delta_word_path in E. tauto.
      - intros (q0 & r & -> & P & F). apply delta_word_path in P. rewrite P. exact F.
    Qed.
  End Obs.

  Lemma path_perm T T' q w r : (forall e : edge A, In e T <-> In e T') -> path T q w r -> path T' q w r.
  Proof. intros E. induction 1; econstructor; [apply E; eassumption | assumption]. Qed.
End P.
