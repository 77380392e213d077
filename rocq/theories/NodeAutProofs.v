(** NodeAutomaton: refinement, through the automaton obtained by forgetting the symbols of the vertices. *)
From Verif Require Import Graph GraphProofs Automaton AutomatonSpec AutomatonProofs AutomatonProofs3 NodeAut NodeAutSpec Base BaseProofs.
#[local] Arguments dkeys : simpl never.

Section NA.
  Context {A : Type} {EA : EqDec A}.
  Local Notation tedge := (edge (option A)).
  Definition forget (g : naut A) : aut (option A) := mkAut (na_last g) (na_adj g) (na_q0 g) (na_final g).
  (** the stored labels are the symbols of the targets *)
  Definition labelled (g : naut A) : Prop := forall q a r, tr (na_adj g) q a = Some r -> a = na_symbol g r.

  Lemma forget_remove_edge g (e : tedge) : A_remove_edge (forget g) (Edge (source e) (target e) (na_symbol g (target e))) = (forget (NA_remove_edge g e), Ok tt) /\
    na_symbol (NA_remove_edge g e) = na_symbol g /\ na_pred (NA_remove_edge g e) = na_pred g.
  Proof.
    unfold A_remove_edge, NA_remove_edge. cbn. destruct (dget (na_adj g) (source e)) as [d|]; [|auto]. destruct (dmem d (na_symbol g (target e))); auto.
  Qed.
  Lemma forget_remove_edges (c : tedge -> bool) L : forall g, (forall e, In e L -> distinguisher e = na_symbol g (target e)) ->
    let g' := fold_left (fun g e => if c e then NA_remove_edge g e else g) L g in
    foreach (fun g e => if c e then A_remove_edge g e else (g, Ok tt)) (forget g) L = (forget g', Ok tt) /\ na_symbol g' = na_symbol g /\ na_pred g' = na_pred g.
  Proof.
    induction L as [|e L IH]; intros g H; cbn [fold_left foreach]; [auto|]. assert (HL : forall x, In x L -> distinguisher x = na_symbol g (target x)) by (intros x I; apply H; right; exact I).
    destruct (c e); [|apply (IH g), HL]. destruct (forget_remove_edge g e) as (E1 & E2 & E3). rewrite <- (H e) in E1 by (left; reflexivity).
    replace (Edge (source e) (target e) (distinguisher e)) with e in E1 by (destruct e; reflexivity). rewrite E1. cbv beta iota. destruct (IH (NA_remove_edge g e)) as (F1 & F2 & F3); [rewrite E2; exact HL|].
    split; [exact F1|]. split; congruence.
  Qed.
  Lemma forget_remove_vertex g u : twf (na_adj g) -> labelled g ->
    A_remove_vertex (forget g) u = (forget (fst (NA_remove_vertex g u)), snd (NA_remove_vertex g u)) /\
    na_symbol (fst (NA_remove_vertex g u)) = na_symbol g /\ na_pred (fst (NA_remove_vertex g u)) = na_pred g /\ labelled (fst (NA_remove_vertex g u)).
  Proof.
    intros W LB. assert (LE : forall e, In e (NA_edges g) -> distinguisher e = na_symbol g (target e)).
    { intros [q r a] I. apply (In_tedges _ _ _ _ W) in I. apply LB in I. exact I. }
    destruct (forget_remove_edges (fun e => u =? target e) (NA_edges g) g LE) as (E1 & E2 & E3).
    destruct (remove_edges_spec (fun e => u =? target e) (NA_edges g) (forget g) W) as (m & F1 & F2 & F3 & F4). rewrite F1 in E1. apply (f_equal fst) in E1. cbn [fst] in E1.
    set (g1 := fold_left (fun g (e : tedge) => if u =? target e then NA_remove_edge g e else g) (NA_edges g) g) in *.
    assert (Em : na_adj g1 = m) by (change (na_adj g1) with (au_adj (forget g1)); rewrite <- E1; reflexivity).
    assert (LB1 : labelled g1).
    { intros q a r H. rewrite E2. apply (LB q). rewrite Em, F4 in H. destruct existsb; [discriminate|exact H]. }
    assert (W1 : twf (na_adj g1)) by (rewrite Em; exact F2).
    assert (MAIN : A_remove_vertex (forget g) u = (forget (fst (NA_remove_vertex g u)), snd (NA_remove_vertex g u)) /\
      na_symbol (fst (NA_remove_vertex g u)) = na_symbol g /\ na_pred (fst (NA_remove_vertex g u)) = na_pred g).
    { unfold A_remove_vertex. change (A_edges (forget g)) with (NA_edges g). rewrite F1. cbv beta iota. unfold NA_remove_vertex. fold g1. rewrite E1. unfold NA_out_edges, A_out_edges. cbn [forget au_adj].
      destruct (dget (na_adj g1) u) as [d|] eqn:D.
      - assert (LO : forall e, In e (map (fun '(a, r) => Edge u r a) d) -> distinguisher e = na_symbol g1 (target e)).
        { intros e I. apply in_map_iff in I. destruct I as ((a & r) & <- & I). cbn. apply (LB1 u). unfold tr. rewrite D. apply In_dget; [apply (proj2 W1 u d D)|exact I]. }
        destruct (forget_remove_edges (fun _ => true) _ g1 LO) as (H1 & H2 & H3). cbv beta iota in H1, H2, H3.
        change (fun (g : aut (option A)) (e : tedge) => A_remove_edge g e) with (@A_remove_edge (option A) _) in H1. change (fun (g : naut A) (e : tedge) => NA_remove_edge g e) with (@NA_remove_edge A _) in H1, H2, H3.
        rewrite H1. cbn [forget au_adj]. set (g2 := fold_left NA_remove_edge _ g1) in *. destruct (dmem (na_adj g2) u); cbn [fst snd na_symbol na_pred]; (split; [reflexivity|]); cbn; split; congruence.
      - cbn [foreach]. assert (DM : dmem (na_adj g1) u = false) by (unfold dmem; rewrite D; reflexivity). cbn [forget au_adj]. rewrite DM. cbn [fst snd]. split; [reflexivity|]. split; congruence. }
    destruct MAIN as (M1 & M2 & M3). split; [exact M1|]. split; [exact M2|]. split; [exact M3|]. intros q a r H. rewrite M2. apply (LB q).
    destruct (remove_vertex_spec (forget g) u W) as (m2 & _ & R2 & _ & R4). rewrite M1 in R2. apply (f_equal fst) in R2. cbn [fst] in R2. assert (Em2 : na_adj (fst (NA_remove_vertex g u)) = m2) by (change (na_adj (fst (NA_remove_vertex g u))) with (au_adj (forget (fst (NA_remove_vertex g u)))); rewrite R2; reflexivity).
    rewrite Em2 in H. apply R4 in H. apply H.
  Qed.
  Lemma forget_clear_aux L : forall g, twf (na_adj g) -> labelled g -> exists g', foreach NA_remove_vertex g L = (g', snd (foreach A_remove_vertex (forget g) L)) /\
    forget g' = fst (foreach A_remove_vertex (forget g) L) /\ na_symbol g' = na_symbol g /\ na_pred g' = na_pred g.
  Proof.
    induction L as [|u L IH]; intros g W LB; cbn [foreach]; [exists g; auto|]. destruct (forget_remove_vertex g u W LB) as (E1 & E2 & E3 & E4). rewrite E1.
    destruct (remove_vertex_spec (forget g) u W) as (m & Wm & R2 & _). rewrite E1 in R2. apply (f_equal fst) in R2. cbn [fst] in R2. destruct (NA_remove_vertex g u) as [g1 o]. cbn [fst snd] in *.
    destruct o as [t|ex]; cbv beta iota; [|exists g1; auto]. destruct (IH g1) as (g' & F1 & F2 & F3 & F4); [change (na_adj g1) with (au_adj (forget g1)); rewrite R2; exact Wm|exact E4|].
    exists g'. split; [exact F1|]. split; [exact F2|]. split; congruence.
  Qed.

  Definition nvrep (g : naut A) (s : nstate A) : Prop :=
    arep (forget g) (AA (nv_next s) (nv_V s) (nv_T s) (nv_q0 s) (nv_final s)) /\ (forall q, na_symbol g q = nv_sym s q) /\
    (forall e, In e (nv_T s) -> distinguisher e = nv_sym s (target e) /\ In (target e) (nv_V s)).
  Lemma nvrep_labelled g s : nvrep g s -> labelled g.
  Proof. intros ((_ & _ & _ & R & _) & Sy & C) q a r H. apply R in H. apply C in H. cbn in H. rewrite Sy. apply H. Qed.

  Lemma nv_refine g s op : nvrep g s -> match op with VAddEdge q r => In r (nv_V s) | _ => True end ->
    nvrep (fst (NA_call g op)) (fst (nv_step s op)) /\ snd (NA_call g op) = snd (nv_step s op).
  Proof.
    intros R HD. pose proof (nvrep_labelled g s R) as LB. destruct R as (R & Sy & C). destruct s as [k V T sym q0 f]. cbn [nv_next nv_V nv_T nv_sym nv_q0 nv_final] in *.
    pose proof R as (HL & KV & W & TR & Q & F & LT). cbn [forget au_last au_adj au_q0 au_final aa_next aa_V aa_T aa_q0 aa_final] in *.
    destruct op as [a|q r|e|u|q b|q b|]; cbn [NA_call nv_step].
    - pose proof (A_step _ _ AAddVertex R) as [R1 _]. cbn [A_call aa_step fst] in R1. cbn [fst snd NA_add_vertex aout_vertex]. split; [|f_equal; exact HL].
      split; [exact R1|]. cbn [na_symbol nv_sym nv_T nv_V]. rewrite HL. split.
      + intros x. destruct a; [|apply Sy]. rewrite <- Sy. destruct (eqb_spec x k), (Nat.eqb_spec x k); congruence.
      + intros e I. destruct (C e I) as [C1 C2]. split; [|apply in_app_iff; auto]. destruct a; [|exact C1]. specialize (LT _ C2). destruct (Nat.eqb_spec (target e) k); [lia|exact C1].
    - unfold NA_add_edge. rewrite Sy, (trep_lookup _ _ q (sym r) TR). unfold tr. destruct (dget (na_adj g) q) as [d|] eqn:D.
      + assert (M : mem q V = true) by (apply mem_spec; rewrite <- KV; eapply dget_Some_key; exact D). rewrite M. unfold dmem. destruct (dget d (sym r)) as [x|] eqn:Dx; cbn.
        * split; [|reflexivity]. split; [exact R|]. split; [exact Sy|exact C].
        * split; [|reflexivity]. destruct (trep_set _ _ q r (sym r) d W TR D) as (W' & TR' & K').
          assert (DK : drop_key q (sym r) T = T).
          { apply filter_id. intros [q' r' a'] I. destruct (same_key_spec q (sym r) (Edge q' r' a')) as [[X Y]|]; [|reflexivity]. cbn in X, Y. subst. apply TR in I. unfold tr in I. rewrite D in I. congruence. }
          rewrite DK in TR'. split; [|split].
          -- unfold arep. cbn. rewrite K'. auto 10.
          -- exact Sy.
          -- cbn. intros e I. apply in_app_iff in I. destruct I as [I|[<-|[]]]; [apply C, I|cbn; auto].
      + assert (M : mem q V = false) by (apply mem_false; rewrite <- KV; apply dget_None; exact D). rewrite M. cbn. split; [|reflexivity]. split; [exact R|]. split; [exact Sy|exact C].
    - cbn [fst snd]. split; [|reflexivity]. destruct (forget_remove_edge g e) as (E1 & E2 & E3). pose proof (A_step _ _ (ARemoveEdge (Edge (source e) (target e) (sym (target e)))) R) as [R1 _].
      cbn [A_call aa_step fst] in R1. rewrite <- Sy, E1 in R1. cbn [fst] in R1. split; [cbn [nv_next nv_V nv_T nv_q0 nv_final]; rewrite <- Sy; exact R1|]. split; [rewrite E2; exact Sy|].
      intros x I. cbn [nv_T nv_sym nv_V] in *. apply In_drop_key in I. apply C, I.
    - destruct (forget_remove_vertex g u W LB) as (E1 & E2 & E3 & E4). pose proof (A_step _ _ (ARemoveVertex u) R) as [R1 R2]. cbn [A_call] in R1, R2. rewrite E1 in R1, R2.
      destruct (NA_remove_vertex g u) as [g' o]. cbn [fst snd] in *. cbn [aa_step] in R1, R2. destruct (mem u V) eqn:M; cbn [fst snd] in *; (split; [|exact R2]).
      + split; [exact R1|]. split; [intros x; rewrite E2; apply Sy|]. cbn [nv_T nv_sym nv_V]. intros e I. unfold drop_incident in I. apply filter_In in I. destruct I as [I N]. destruct (C e I) as [C1 C2]. split; [exact C1|].
        apply filter_In. split; [exact C2|]. apply negb_true_iff in N. apply orb_false_iff in N. destruct N as [_ ->]. reflexivity.
      + assert (DI : drop_into u T = T).
        { apply filter_id. intros e I. destruct (C e I) as [_ C2]. destruct (Nat.eqb_spec (target e) u) as [E|]; [|reflexivity]. rewrite E in C2. apply mem_spec in C2. congruence. }
        rewrite DI in R1. split; [exact R1|]. split; [intros x; rewrite E2; apply Sy|exact C].
    - pose proof (A_step _ _ (ASetInitial q b) R) as [R1 _]. cbn [A_call aa_step fst] in R1. cbn [fst snd]. split; [|reflexivity]. split; [exact R1|]. split; [exact Sy|exact C].
    - pose proof (A_step _ _ (ASetFinal q b) R) as [R1 _]. cbn [A_call aa_step fst] in R1. cbn [fst snd]. split; [|reflexivity]. split; [exact R1|]. split; [exact Sy|exact C].
    - unfold NA_clear. set (g0 := mkNAut 0 _ _ _ _ _). destruct (forget_clear_aux (NA_vertices g0) g0 W LB) as (g' & E1 & E2 & E3 & E4). rewrite E1.
      pose proof (A_step _ _ AClear R) as [R1 R2]. cbn [A_call] in R1, R2. unfold A_clear in R1, R2. change (mkAut 0 (au_adj (forget g)) (au_q0 (forget g)) (au_final (forget g))) with (forget g0) in R1, R2. change (A_vertices (forget g0)) with (NA_vertices g0) in R1, R2.
      destruct (foreach A_remove_vertex (forget g0) (NA_vertices g0)) as [h o]. cbn [fst snd aa_step] in *. subst h. split; [|exact R2]. split; [exact R1|]. split; [intros x; rewrite E3; apply Sy|intros e []].
  Qed.
  Lemma nvrep_init n : nvrep (NA_init_n n) (nv_init n).
  Proof.
    assert (G : forall m g k, nvrep g (NSt k (seq 0 k) [] (fun _ => None) (Some 0) (fun _ => false)) -> nvrep (NA_add_vertices m g) (NSt (m + k) (seq 0 (m + k)) [] (fun _ => None) (Some 0) (fun _ => false))).
    { induction m as [|m IH]; intros g k R; [exact R|]. replace (S m + k) with (m + S k) by lia. cbn [NA_add_vertices]. apply IH. pose proof (nv_refine g _ (VAddVertex None) R I) as [R1 _]. cbn [NA_call nv_step fst] in R1.
      destruct (NA_add_vertex g None) as [g1 o]. cbn [fst] in *. change (seq 0 k ++ [k]) with (seq 0 k ++ [0 + k]) in R1. rewrite <- (seq_S k 0) in R1. exact R1. }
    unfold NA_init_n, nv_init. rewrite <- (Nat.add_0_r n) at 2 3. apply G. split; [|split; [reflexivity|intros e []]]. apply (arep_init 0).
  Qed.
  Lemma nvrep_runs ops : forall g s, nvrep g s -> nv_disciplined s ops ->
    nvrep (fst (runs NA_call g ops)) (fst (runs nv_step s ops)) /\ snd (runs NA_call g ops) = snd (runs nv_step s ops).
  Proof.
    induction ops as [|op ops IH]; intros g s R D; cbn; [auto|]. destruct D as [D1 D2]. pose proof (nv_refine g s op R D1) as [R1 E1].
    destruct (NA_call g op) as [g1 o], (nv_step s op) as [s1 o']. cbn [fst snd] in *. subst o'. destruct (IH g1 s1 R1 D2) as [R2 E2]. destruct (runs NA_call g1 ops), (runs nv_step s1 ops). cbn in *. split; [exact R2|congruence].
  Qed.

  (** observations *)
  Lemma nv_obs g s : nvrep g s ->
    NA_vertices g = nv_V s /\ Permutation (NA_edges g) (nv_T s) /\ na_q0 g = nv_q0 s /\ (forall q, na_final g q = nv_final s q) /\ (forall q, na_symbol g q = nv_sym s q) /\
    (forall q, NA_out_edges g q = Raise KeyError /\ ~ In q (nv_V s) \/ exists l, NA_out_edges g q = Ok l /\ In q (nv_V s) /\ Permutation l (filter (fun e => source e =? q) (nv_T s))) /\
    (forall q a, NA_delta g q a = if mem q (nv_V s) then Ok (lookup (nv_T s) q a) else Raise KeyError) /\
    (forall q r, NA_edge g q r = let e := Edge q r (nv_sym s r) in if mem e (nv_T s) then (Some e, true) else (None, false)) /\
    (forall q a, In a (NA_sigma g (Some q)) <-> exists r, In (Edge q r a) (nv_T s)) /\
    (forall a, In a (NA_alphabet g) <-> exists q, In q (nv_V s) /\ nv_q0 s <> Some q /\ a = nv_sym s q) /\
    (forall e, In e (nv_T s) -> NA_label g e = distinguisher e).
  Proof.
    intros R. destruct R as (R & Sy & C). pose proof R as (HL & KV & W & TR & Q & F & LT). cbn [forget au_last au_adj au_q0 au_final aa_next aa_V aa_T aa_q0 aa_final] in *.
    split; [exact KV|]. split; [apply (obs_edges _ _ R)|]. split; [exact Q|]. split; [exact F|]. split; [exact Sy|]. split; [|split; [|split; [|split; [|split]]]].
    - intros q. pose proof (obs_out _ _ R q) as O. unfold A_out_edges, NA_out_edges in *. cbn [forget au_adj aa_T] in O. destruct (dget (na_adj g) q) as [d|] eqn:D; [right|left].
      + exists (map (fun '(a, r) => Edge q r a) d). split; [reflexivity|]. split; [rewrite <- KV; eapply dget_Some_key; exact D|exact O].
      + split; [reflexivity|]. rewrite <- KV. apply dget_None. exact D.
    - intros q a. unfold NA_delta. rewrite (trep_lookup _ _ q a TR). unfold tr. destruct (dget (na_adj g) q) as [d|] eqn:D.
      + assert (M : mem q (nv_V s) = true) by (apply mem_spec; rewrite <- KV; eapply dget_Some_key; exact D). rewrite M. reflexivity.
      + assert (M : mem q (nv_V s) = false) by (apply mem_false; rewrite <- KV; apply dget_None; exact D). rewrite M. reflexivity.
    - intros q r. cbv zeta. unfold NA_edge. assert (IT : forall r' a, In (Edge q r' a) (nv_T s) <-> tr (na_adj g) q a = Some r') by (intros; apply TR). unfold tr in IT. destruct (dget (na_adj g) q) as [d|] eqn:D.
      + destruct (find (fun '(_, r') => r =? r') d) as [[a r']|] eqn:FD.
        * apply find_some in FD. destruct FD as [I E]. apply Nat.eqb_eq in E. subst r'. apply In_dget in I; [|apply (proj2 W q d D)]. apply IT in I. destruct (C _ I) as [C1 _]. cbn in C1. subst a. rewrite (proj2 (mem_spec _ _) I). reflexivity.
        * destruct (mem_reflect (Edge q r (nv_sym s r)) (nv_T s)) as [I|]; [|reflexivity]. apply IT in I. apply dget_In in I. pose proof (find_none _ _ FD _ I) as E. cbn in E. rewrite Nat.eqb_refl in E. discriminate.
      + destruct (mem_reflect (Edge q r (nv_sym s r)) (nv_T s)) as [I|]; [|reflexivity]. apply IT in I. discriminate.
    - intros q a. apply (obs_sigma _ _ R).
    - intros a. unfold NA_alphabet. rewrite In_sof, in_map_iff. split.
      + intros (q & <- & I). apply filter_In in I. destruct I as [I N]. exists q. unfold NA_vertices in I. rewrite KV in I. split; [exact I|]. split; [|apply Sy]. unfold NA_is_initial in N. apply negb_true_iff in N. rewrite <- Q. intros E. rewrite E, eqb_refl in N. discriminate.
      + intros (q & I & N & ->). exists q. split; [apply Sy|]. apply filter_In. unfold NA_vertices. rewrite KV. split; [exact I|]. unfold NA_is_initial. apply negb_true_iff. apply eqb_neq. rewrite Q. exact N.
    - intros e I. unfold NA_label. rewrite Sy. symmetry. apply C, I.
  Qed.
  Lemma nv_accepts g s w : nvrep g s ->
    match nv_q0 s with
    | None => NA_accepts g w = Ok false
    | Some q0 => if mem q0 (nv_V s) then exists b, NA_accepts g w = Ok b /\ (b = true <-> exists r, path (nv_T s) q0 (map Some w) r /\ nv_final s r = true)
                 else NA_accepts g w = match w with [] => Ok (nv_final s q0) | _ => Raise KeyError end
    end.
  Proof.
    intros R. destruct (nv_obs g s R) as (KV & PE & Q & F & Sy & _ & DE & _). destruct R as (R & _ & C). unfold NA_accepts. rewrite Q. destruct (nv_q0 s) as [q0|]; [|destruct w; reflexivity].
    destruct (mem q0 (nv_V s)) eqn:M; [|destruct w as [|a w]; cbn; [rewrite F; reflexivity|rewrite DE, M; reflexivity]].
    assert (G : forall w q, In q (nv_V s) -> exists o, NA_delta_word g (Some q) w = Ok o /\ forall r, o = Some r <-> path (nv_T s) q (map Some w) r).
    { clear w M. induction w as [|a w IH]; intros q I; cbn [NA_delta_word map].
      - exists (Some q). split; [reflexivity|]. intros r. split; [intros [= <-]; constructor|inversion 1; reflexivity].
      - rewrite DE. rewrite (proj2 (mem_spec _ _) I). destruct (lookup (nv_T s) q (Some a)) as [r|] eqn:L.
        + assert (IE : In (Edge q r (Some a)) (nv_T s)). { pose proof R as (_ & _ & _ & TR & _). cbn in TR. rewrite (trep_lookup _ _ _ _ TR) in L. apply TR, L. }
          destruct (IH r) as (o & E & H); [apply (C _ IE)|]. exists o. split; [exact E|]. intros t. rewrite H. split.
          * intros P. econstructor; [exact IE|exact P].
          * inversion 1 as [|? ? r' ? ? I' P]; subst. assert (r' = r) as ->; [|exact P]. pose proof R as (_ & _ & _ & TR & _). cbn in TR. apply TR in I', IE. congruence.
        + exists None. split; [destruct w; reflexivity|]. intros t. split; [discriminate|]. inversion 1 as [|? ? r' ? ? I' P]; subst. pose proof R as (_ & _ & _ & TR & _). cbn in TR. rewrite (trep_lookup _ _ _ _ TR) in L. apply TR in I'. congruence. }
    destruct (G w q0) as (o & E & H); [apply mem_spec, M|]. rewrite E. destruct o as [r|].
    - exists (na_final g r). split; [reflexivity|]. rewrite F. split; [intros Fr; exists r; split; [apply H; reflexivity|exact Fr]|]. intros (r' & P & Fr). apply H in P. injection P as ->. exact Fr.
    - exists false. split; [reflexivity|]. split; [discriminate|]. intros (r' & P & _). apply H in P. discriminate.
  Qed.
End NA.
