(** make_node_automaton *)
From Verif Require Import Graph GraphProofs Automaton AutomatonSpec AutomatonProofs AutomatonProofs3 NodeAut NodeAutSpec NodeAutProofs Base BaseProofs.
#[local] Arguments dkeys : simpl never.

Section M.
  Context {A N : Type} {EA : EqDec A} {EN : EqDec N}.
  Variables (label : N -> option A) (fin : key N -> bool).

  Lemma node_names_spec sorted (tr : list (N * N)) : (forall l, Permutation (sorted l) l) ->
    NoDup (node_names sorted tr) /\ forall x, In x (node_names sorted tr) <-> exists y, In (x, y) tr \/ In (y, x) tr.
  Proof.
    intros HP. unfold node_names. split.
    - eapply Permutation_NoDup; [symmetry; apply HP|]. apply NoDup_sunion. apply NoDup_sof.
    - intros x. etransitivity; [split; apply Permutation_in; [|symmetry]; apply HP|].
      rewrite In_sunion, In_sof, !in_map_iff. split.
      + intros [((q, r) & <- & I)|((q, r) & <- & I)]; cbn; eauto.
      + intros (y & [I|I]); [left|right]; eexists; (split; [|exact I]); reflexivity.
  Qed.

  Definition sym_of (names : list N) (q : nat) : option A := match nth_error names q with Some qn => label qn | None => None end.
  Lemma make_node_vertices_spec names : forall g done, (exists sym f, nvrep g (NSt (length done) (seq 0 (length done)) [] sym (Some 0) f) /\
      (forall q, sym q = sym_of done q) /\ (forall q, f q = (q <? length done) && fin (ByDescriptor q))) ->
    exists g' sym f, make_node_vertices (Some label) fin g names = (g', Ok tt) /\ nvrep g' (NSt (length (done ++ names)) (seq 0 (length (done ++ names))) [] sym (Some 0) f) /\
      (forall q, sym q = sym_of (done ++ names) q) /\ (forall q, f q = (q <? length (done ++ names)) && fin (ByDescriptor q)).
  Proof.
    induction names as [|n names IH]; intros g done (sym & f & R & H1 & H2); unfold make_node_vertices; cbn [foreach].
    - exists g, sym, f. rewrite app_nil_r. auto.
    - pose proof (nv_refine g _ (VAddVertex (label n)) R I) as [R1 O1]. cbn [NA_call nv_step fst snd] in R1, O1. cbn [NA_add_vertex] in *. set (g1 := mkNAut _ _ _ _ _ _) in *. cbn [aout_vertex fst snd] in R1, O1. injection O1 as O1. rewrite O1 in *.
      set (u := length done) in *. set (g2 := if fin (ByDescriptor u) then NA_set_final g1 u true else g1).
      change (fun _ _ => _) with (fun (g : naut A) (vertex_name : N) => match NA_add_vertex g (label vertex_name) with | (g0, Ok u0) => (if fin (ByDescriptor u0) then NA_set_final g0 u0 true else g0, Ok tt) | (g0, Raise ex) => (g0, @Raise unit ex) end).
      destruct (IH g2 (done ++ [n])) as (g' & sym' & f' & E & R' & H1' & H2').
      + assert (EL : length (done ++ [n]) = S u) by (rewrite app_length; cbn; lia). rewrite EL.
        set (sym1 := match label n with None => sym | Some _ => fun x => if x =? u then label n else sym x end) in *.
        replace (seq 0 u ++ [u]) with (seq 0 (S u)) in R1 by (rewrite seq_S; reflexivity).
        assert (S1 : forall q, sym1 q = sym_of (done ++ [n]) q).
        { intros q. assert (SQ : sym_of (done ++ [n]) q = if q =? u then label n else sym_of done q).
          { unfold sym_of. destruct (Nat.eqb_spec q u) as [->|Nq]; [unfold u; rewrite nth_error_app2, Nat.sub_diag by reflexivity; reflexivity|]. destruct (Nat.lt_ge_cases q u) as [L|L]; [rewrite nth_error_app1 by exact L; reflexivity|].
            rewrite (proj2 (nth_error_None (done ++ [n]) q)) by lia. rewrite (proj2 (nth_error_None done q)) by exact L. reflexivity. }
          rewrite SQ. unfold sym1. destruct (label n) as [a|] eqn:EL'.
          - destruct (q =? u); [reflexivity|apply H1].
          - destruct (Nat.eqb_spec q u) as [Eq|]; [|apply H1]. rewrite H1, Eq. unfold sym_of. rewrite (proj2 (nth_error_None done u)) by reflexivity. reflexivity. }
        unfold g2. destruct (fin (ByDescriptor u)) eqn:FU.
        * pose proof (nv_refine g1 _ (VSetFinal u true) R1 I) as [R2 _]. cbn [NA_call nv_step fst snd] in R2. eexists sym1, _. split; [exact R2|]. split; [exact S1|]. intros q. cbn beta. destruct (Nat.eqb_spec q u) as [->|Nq].
          -- destruct (Nat.ltb_spec u (S u)); [rewrite FU; reflexivity|lia].
          -- rewrite H2. destruct (Nat.ltb_spec q u), (Nat.ltb_spec q (S u)); try reflexivity; lia.
        * exists sym1, f. split; [exact R1|]. split; [exact S1|]. intros q. rewrite H2. destruct (Nat.ltb_spec q u), (Nat.ltb_spec q (S u)); try reflexivity; try lia. replace q with u by lia. rewrite FU. reflexivity.
      + exists g', sym', f'. rewrite <- app_assoc in *. split; [exact E|auto].
  Qed.

  (** the transitions: the first one for each source and symbol *)
  Definition first_listed (tr : list (N * N)) (qn rn : N) : Prop := exists p1 p2, tr = p1 ++ (qn, rn) :: p2 /\ forall rn', In (qn, rn') p1 -> label rn' <> label rn.
  Lemma first_listed_ex tr qn rn : In (qn, rn) tr -> exists rn', first_listed tr qn rn' /\ label rn' = label rn.
  Proof.
    induction tr as [|[q r] tr IH]; [intros []|]. intros I. destruct (eqb_spec q qn) as [->|Nq].
    - destruct (eqb_spec (label r) (label rn)) as [E|NE].
      + exists r. split; [exists [], tr; split; [reflexivity|intros ? []]|exact E].
      + destruct I as [[= ->]|I]; [congruence|]. destruct (IH I) as (rn' & (p1 & p2 & -> & H) & E). exists rn'. split; [|exact E]. exists ((qn, r) :: p1), p2. split; [reflexivity|]. intros x [[= ->]|Ix]; [congruence|apply H, Ix].
    - destruct I as [[= -> _]|I]; [congruence|]. destruct (IH I) as (rn' & (p1 & p2 & -> & H) & E). exists rn'. split; [|exact E]. exists ((q, r) :: p1), p2. split; [reflexivity|]. intros x [[= -> _]|Ix]; [congruence|apply H, Ix].
  Qed.
  Lemma first_listed_snoc tr q r qn rn : first_listed (tr ++ [(q, r)]) qn rn <-> first_listed tr qn rn \/ ((qn, rn) = (q, r) /\ forall rn', In (qn, rn') tr -> label rn' <> label rn).
  Proof.
    split.
    - intros (p1 & p2 & E & H). destruct p2 as [|t p2 _] using rev_ind.
      + apply app_inj_tail in E. destruct E as [-> E]. right. auto.
      + rewrite app_comm_cons, app_assoc in E. apply app_inj_tail in E. destruct E as [-> ->]. left. exists p1, p2. auto.
    - intros [(p1 & p2 & -> & H)|[[= -> ->] H]].
      + exists p1, (p2 ++ [(q, r)]). split; [rewrite <- app_assoc; reflexivity|exact H].
      + exists tr, []. auto.
  Qed.
  Lemma first_listed_fun tr qn rn rn' : first_listed tr qn rn -> first_listed tr qn rn' -> label rn = label rn' -> rn = rn'.
  Proof.
    intros (p1 & p2 & -> & H) (p3 & p4 & E & H') EL. revert p3 E H'. induction p1 as [|t p1 IH]; intros p3 E H'; destruct p3 as [|t' p3]; cbn in E.
    - injection E. congruence.
    - injection E as <- E. exfalso. apply (H' rn); [left; reflexivity|exact EL].
    - injection E as -> E. exfalso. apply (H rn'); [left; reflexivity|congruence].
    - injection E as -> E. apply (IH (fun x I => H x (or_intror I)) p3 E (fun x I => H' x (or_intror I))).
  Qed.

  Lemma make_node_edges_spec names tr : NoDup names -> forall g pre T sym f, (forall qn rn, In (qn, rn) (pre ++ tr) -> In qn names /\ In rn names) ->
    nvrep g (NSt (length names) (seq 0 (length names)) T sym (Some 0) f) -> (forall q, sym q = sym_of names q) ->
    (forall q r a, In (Edge q r a) T <-> exists qn rn, nth_error names q = Some qn /\ nth_error names r = Some rn /\ a = label rn /\ first_listed pre qn rn) ->
    exists g' T', make_node_edges names g tr = (g', Ok tt) /\ nvrep g' (NSt (length names) (seq 0 (length names)) T' sym (Some 0) f) /\
      (forall q r a, In (Edge q r a) T' <-> exists qn rn, nth_error names q = Some qn /\ nth_error names r = Some rn /\ a = label rn /\ first_listed (pre ++ tr) qn rn).
  Proof.
    intros ND. induction tr as [|[qn rn] tr IH]; intros g pre T sym f HI R HS HT; unfold make_node_edges; cbn [foreach].
    - exists g, T. rewrite app_nil_r. auto.
    - destruct (HI qn rn) as [Iq Ir]; [apply in_app_iff; right; left; reflexivity|].
       destruct (index_of_In names qn Iq) as [q Eq]. destruct (index_of_In names rn Ir) as [r Er]. rewrite Eq, Er.
      pose proof (proj1 (index_of_spec names qn q ND) Eq) as Nq. pose proof (proj1 (index_of_spec names rn r ND) Er) as Nr.
      assert (Lq : q < length names) by (apply nth_error_Some; congruence). assert (Lr : r < length names) by (apply nth_error_Some; congruence).
      pose proof (nv_refine g _ (VAddEdge q r) R) as RF. cbn [NA_call nv_step fst snd nv_V] in RF. destruct RF as [R1 O1]; [apply in_seq; lia|].
      assert (Mq : mem q (seq 0 (length names)) = true) by (apply mem_spec, in_seq; lia). rewrite Mq in R1, O1.
      assert (Sr : sym r = label rn) by (rewrite HS; unfold sym_of; rewrite Nr; reflexivity). rewrite Sr in R1, O1.
      destruct (NA_add_edge g q r) as [g1 o]. change (fun _ '(_, _) => _) with
        (fun (g : naut A) '(qn, rn) => match index_of names qn, index_of names rn with | Some q, Some r => match NA_add_edge g q r with (g', Ok _) => (g', Ok tt) | (g', Raise ex) => (g', @Raise unit ex) end | _, _ => (g, Raise KeyError) end).
      assert (OK : exists x, o = Ok x). { destruct o as [[e b]|]; [eauto|]. destruct (lookup T q (label rn)); discriminate. } destruct OK as [x ->].
      pose proof R as (RA & _). pose proof RA as (_ & _ & _ & TR & _). cbn in TR.
      destruct (IH g1 (pre ++ [(qn, rn)]) (match lookup T q (label rn) with Some _ => T | None => T ++ [Edge q r (label rn)] end) sym f) as (g' & T' & E & R' & H').
      + intros qn' rn' I. apply HI. rewrite <- app_assoc in I. exact I.
      + destruct (lookup T q (label rn)); exact R1.
      + exact HS.
      + intros q' r' a'. assert (HX : lookup T q (label rn) = None -> forall rn', In (qn, rn') pre -> label rn' <> label rn).
        { intros L rn' I EL. destruct (first_listed_ex pre qn rn' I) as (rn'' & F & EL'). assert (In rn'' names).
          { destruct F as (p1 & p2 & -> & _). apply (HI qn rn''). apply in_app_iff. left. apply in_app_iff. right. left. reflexivity. }
          destruct (index_of_In names rn'' H) as [r'' E'']. apply (index_of_spec _ _ _ ND) in E''. 
          assert (IT : In (Edge q r'' (label rn)) T) by (apply HT; exists qn, rn''; repeat split; [exact Nq|exact E''|congruence|exact F]).
          apply TR in IT. rewrite <- (trep_lookup _ _ _ _ TR) in IT. congruence. }
        destruct (lookup T q (label rn)) as [r0|] eqn:EL.
        * rewrite HT. split; intros (qn' & rn' & H1 & H2 & H3 & H4); exists qn', rn'; repeat split; try assumption.
          -- apply first_listed_snoc. left. exact H4.
          -- apply first_listed_snoc in H4. destruct H4 as [H4|[[= -> ->] H4]]; [exact H4|]. exfalso. rewrite (trep_lookup _ _ _ _ TR) in EL. apply TR in EL. apply HT in EL. destruct EL as (qn' & rn' & K1 & K2 & K3 & (p1 & p2 & -> & K4)).
             rewrite Nq in K1. injection K1 as <-. apply (H4 rn'); [apply in_app_iff; right; left; reflexivity|congruence].
        * rewrite in_app_iff, HT. split.
          -- intros [(qn' & rn' & H1 & H2 & H3 & H4)|[[= <- <- <-]|[]]].
             ++ exists qn', rn'. repeat split; try assumption. apply first_listed_snoc. left. exact H4.
             ++ exists qn, rn. repeat split; try assumption. apply first_listed_snoc. right. split; [reflexivity|apply HX; reflexivity].
          -- intros (qn' & rn' & H1 & H2 & H3 & H4). apply first_listed_snoc in H4. destruct H4 as [H4|[[= -> ->] H4]]; [left; exists qn', rn'; auto|]. right. left.
             assert (q' = q) by (apply (index_of_spec _ _ _ ND) in H1; congruence). assert (r' = r) by (apply (index_of_spec _ _ _ ND) in H2; congruence). congruence.
      + exists g', T'. rewrite <- app_assoc in H'. split; [exact E|]. split; [exact R'|exact H'].
  Qed.

  Lemma make_node_automaton_spec sorted (tr : list (N * N)) q0n : (forall l, Permutation (sorted l) l) ->
    let names := node_names sorted tr in
    match make_node_automaton sorted tr (Some label) q0n fin with
    | Raise ex => tr <> [] /\ index_of names q0n = None /\ ex = KeyError
    | Ok g => (tr = [] \/ exists q0, index_of names q0n = Some q0) /\ exists T sym f,
        nvrep g (NSt (length names) (seq 0 (length names)) T sym (if length names =? 0 then Some 0 else index_of names q0n) f) /\
        (forall q, sym q = sym_of names q) /\ (forall q, f q = (q <? length names) && fin (ByDescriptor q)) /\
        (forall q r a, In (Edge q r a) T <-> exists qn rn, nth_error names q = Some qn /\ nth_error names r = Some rn /\ a = label rn /\ first_listed tr qn rn)
    end.
  Proof.
    intros HP names. destruct (node_names_spec sorted tr HP) as [ND HN]. fold names in ND, HN. unfold make_node_automaton. fold names.
    destruct (make_node_vertices_spec names NA_init []) as (g1 & sym & f & E1 & R1 & HS & HF).
    { exists (fun _ => None), (fun _ => false). split; [apply (nvrep_init 0)|]. split; [intros []; reflexivity|reflexivity]. }
    cbn [app] in *. rewrite E1.
    destruct (make_node_edges_spec names tr ND g1 [] [] sym f) as (g2 & T & E2 & R2 & HT).
    { intros qn rn I. cbn in I. split; apply HN; eauto. }
    { exact R1. } { exact HS. } { intros q r a. split; [intros []|]. intros (qn & rn & _ & _ & _ & (p1 & p2 & E & _)). destruct p1; discriminate. }
    rewrite E2. cbn [app] in HT.
    assert (EV : NA_vertices g2 = seq 0 (length names)) by apply R2.
    rewrite EV. destruct (length names) as [|n] eqn:EL; cbn [seq Nat.eqb].
    - assert (tr = []). { destruct tr as [|[x y] l]; [reflexivity|]. exfalso. assert (In x names) by (apply HN; exists y; left; left; reflexivity). destruct names; [contradiction|discriminate]. }
      split; [left; exact H|]. exists T, sym, f. auto.
    - destruct (index_of names q0n) as [q0|] eqn:EQ.
      + split; [right; eauto|]. exists T, sym, f. split; [|auto]. pose proof (nv_refine g2 _ (VSetInitial (Some q0) true) R2 I) as [R3 _]. exact R3.
      + repeat split. intros ->. destruct names as [|x l]; [discriminate|]. destruct (proj1 (HN x) (or_introl eq_refl)) as (y & [[]|[]]).
  Qed.
End M.
