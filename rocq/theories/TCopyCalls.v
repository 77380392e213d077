(** Theorem C123 on the callbacks of graph_copy and automaton_copy. *)
From Verif Require Import Graph GraphSpec GraphProofs GraphProofs2 Search SearchSpec SearchProofs SearchProofs2 SearchUsers SearchUsersSpec SearchUsersProofs CopyProofs CopyProofs2 TSearch TSearchUsers
  Automaton AutomatonSpec AutomatonProofs AutCopy AutCopyProofs TAutCopy CopyCalls CopyCallsSpec CopyCallsProofs Base BaseProofs.
#[local] Arguments dkeys : simpl never.

Lemma legal_in_order {E E' G} (src tgt : E -> nat) (I : G -> dict nat nat -> dict E E' -> Prop) s (shows : G -> list nat -> list E' -> Prop) l :
  (forall g pv pe, I g pv pe -> shows g (map snd pv) (map snd pe)) -> all_legal src tgt I l -> (exists s' h l', l = DupVertex s s' h :: l') -> in_order src tgt s shows l.
Proof. intros IS AL H. split; [exact H|]. intros l1 c l2 EQ. destruct (AL l1 c l2 EQ) as [J K]. split; [apply IS, J|exact K]. Qed.

Section Graphs.
  Context {E : Type} {EE : EqDec E}.
  Variables (out_edges : nat -> list E) (source target : E -> nat).
  Hypothesis FIN : finite_graph out_edges target.
  Hypothesis SRC : forall u e, In e (out_edges u) -> source e = u.
  Variables (vrelevant : nat -> bool) (erelevant : E -> bool).
  Notation rel := (fun e => erelevant e && vrelevant (target e)).

  Section Class.
    Variable add_edge : graph -> nat -> nat -> graph * res (gedge * bool).
    Definition erase {St} (st : ccopying E gedge graph St) : copying := Copying (cc_dup st) (cc_vertices st) (cc_edges st) (cc_done st).
    Lemma erase_calls t : forall st : ccopying E gedge graph unit,
      calls (copy_visitor source target vrelevant erelevant G_add_vertex add_edge) t (erase st) =
      match calls (c_copy_visitor source target vrelevant erelevant G_add_vertex (fun _ => add_edge) None None) t st with Ok st' => Ok (erase st') | Raise x => Raise x end.
    Proof.
      assert (D : forall u (st : ccopying E gedge graph unit), @dup_vertex E graph G_add_vertex u (erase st) = match c_dup_vertex G_add_vertex None u st with Ok (st', u') => Ok (erase st', u') | Raise x => Raise x end).
      { intros u st. reflexivity. }
      induction t as [|x t IH]; intros st; [reflexivity|]. cbn [calls]. destruct x; cbn [copy_visitor c_copy_visitor rbind]; try apply IH.
      - rewrite D. destruct (c_dup_vertex G_add_vertex None v st) as [[st' u']|x]; cbn [rbind]; [apply IH|reflexivity].
      - destruct (erelevant e && vrelevant (target e)); [|apply IH].
        assert (C : copy_edge source target G_add_vertex add_edge e (erase st) = match c_copy_edge source target G_add_vertex (fun _ => add_edge) None None e st with Ok st' => Ok (erase st') | Raise x => Raise x end).
        { unfold copy_edge, c_copy_edge. change (cp_vertices (erase st)) with (cc_vertices st). change (cp_done (erase st)) with (cc_done st). destruct (dget (cc_vertices st) (source e)) as [u'|]; [|reflexivity].
          assert (F : forall st1 v', match add_edge (cp_dup (erase st1)) u' v' with (_, Raise x) => Raise x | (g, Ok (e_dup, _)) => Ok (Copying g (cp_vertices (erase st1)) (dset (cp_edges (erase st1)) e e_dup) (cp_done (erase st1))) end =
              match match add_edge (cc_dup st1) u' v' with (_, Raise x) => Raise x | (g, Ok (e_dup, _)) => Ok (CCopying g (cc_vertices st1) (dset (cc_edges st1) e e_dup) (cc_done st1) (cc_user st1 : unit)) end with Ok st' => Ok (erase st') | Raise x => Raise x end).
          { intros st1 v'. change (cp_dup (erase st1)) with (cc_dup st1). destruct (add_edge (cc_dup st1) u' v') as [g [[e' b]|x]]; reflexivity. }
          destruct (mem (target e) (cc_done st)).
          - destruct (dget (cc_vertices st) (target e)) as [v'|]; cbn [rbind]; [apply F|reflexivity].
          - rewrite D. destruct (c_dup_vertex G_add_vertex None (target e) st) as [[st1 v']|x]; cbn [rbind]; [apply F|reflexivity]. }
        rewrite C. destruct (c_copy_edge source target G_add_vertex (fun _ => add_edge) None None e st); cbn [rbind]; [apply IH|reflexivity].
    Qed.

    Variable I : graph -> dict nat nat -> dict E gedge -> Prop.
    Hypothesis I0 : I (G_init 0) [] [].
    Hypothesis IV : forall g pv pe u, I g pv pe -> ~ In u (dkeys pv) -> exists g' u', G_add_vertex g = (g', Ok u') /\ I g' (pv ++ [(u, u')]) pe.
    Hypothesis IE : forall g pv pe e u' v', I g pv pe -> dget pv (source e) = Some u' -> dget pv (target e) = Some v' -> ~ In e (dkeys pe) ->
      exists g' e' b, add_edge g u' v' = (g', Ok (e', b)) /\ I g' pv (pe ++ [(e, e')]).
    Lemma copy_calls_class s : (forall u, NoDup (out_edges u)) -> exists g_dup pv pe done l,
      (exists bound, forall fuel, bound <= fuel -> graph_copy out_edges source target vrelevant erelevant G_add_vertex add_edge fuel s (G_init 0) = Some (Ok (Copying g_dup pv pe done))) /\
      (forall St on_vertex on_edge, exists bound, forall (user : St) fuel, bound <= fuel ->
         graph_copy_calls out_edges source target vrelevant erelevant add_edge on_vertex on_edge fuel s (G_init 0) user =
         Some (match perform on_vertex on_edge l user with Ok user' => Ok (CCopying g_dup pv pe done user') | Raise x => Raise x end)) /\
      told_vertices l = pv /\ told_edges l = pe /\ all_legal source target I l /\ exists s' h l', l = DupVertex s s' h :: l'.
    Proof.
      intros ND. destruct (dfs_white out_edges target rel FIN s [] eq_refl) as (t & c' & R).
      destruct (proj1 (run_edges out_edges target rel) _ _ _ _ _ R) as (E1 & E2 & E3).
      pose proof (proj1 (run_facts out_edges target rel) _ _ _ _ _ R) as F.
      assert (XR : Forall (fun e => rel e = true) (examined t)).
      { apply Forall_forall. intros e J. apply (Permutation_in _ E1) in J. apply in_flat_map in J. destruct J as (u & _ & J). apply filter_In in J. apply J. }
      assert (NX : NoDup (examined t)).
      { eapply Permutation_NoDup; [apply Permutation_sym, E1|]. pose proof (f_nodup _ _ _ F) as N. revert N. generalize (discovered t) as l. induction l as [|u l IH]; cbn; intros N; [constructor|].
        inversion N as [|? ? N1 N2]; subst. apply NoDup_app_intro; [apply NoDup_filter, ND|apply IH, N2|]. intros e J K. apply filter_In in J. apply in_flat_map in K.
        destruct K as (u' & K1 & K2). apply filter_In in K2. destruct J as [J _], K2 as [K2 _]. rewrite <- (SRC _ _ J), (SRC _ _ K2) in N1. exact (N1 K1). }
      destruct (copy_whole source target vrelevant erelevant G_add_vertex (fun _ => add_edge) I (fun _ => True) IV (fun g pv pe e u' v' J _ => IE g pv pe e u' v' J) s out_edges (G_init 0) I0 t c' R SRC NX) as (k & K & HD & H); [apply Forall_forall; auto|exact XR|].
      exists (k_g k), (k_pv k), (k_pe k), (k_done k), (k_calls k). split; [|split; [|split; [apply K|split; [apply K|split; [apply K|exact HD]]]]].
      - destruct (H unit None None) as (b1 & H1).
        destruct (dfs_run out_edges target rel (copy_visitor source target vrelevant erelevant G_add_vertex add_edge) s [] t c' R) as (b2 & H2).
        destruct (dfs_run out_edges target rel (c_copy_visitor source target vrelevant erelevant G_add_vertex (fun _ => add_edge) (None : option (nat -> nat -> graph -> unit -> res unit)) None) s [] t c' R) as (b3 & H3).
        exists (b1 + b2 + b3). intros fuel L. specialize (H1 tt fuel ltac:(lia)). unfold c_copy in H1. rewrite H3 in H1 by lia.
        unfold graph_copy. rewrite H2 by lia. unfold after in *. change (Copying (G_init 0) [] [] []) with (erase (CCopying (G_init 0) [] [] [] tt : ccopying E gedge graph unit)). rewrite erase_calls.
        destruct (calls _ (Start s :: t) (CCopying (G_init 0) [] [] [] tt)) as [st'|x]; cbn [result] in *.
        + assert (P : forall l : list (dup_call E gedge graph), perform None None l tt = Ok tt) by (induction l as [|[] l IH]; [reflexivity| |]; exact IH). rewrite P in H1. cbn [rbind] in H1. injection H1 as ->. reflexivity.
        + assert (P : forall l : list (dup_call E gedge graph), perform None None l tt = Ok tt) by (induction l as [|[] l IH]; [reflexivity| |]; exact IH). rewrite P in H1. discriminate.
      - intros St on_v on_e. destruct (H St on_v on_e) as (b & H1). exists b. intros user fuel L. unfold graph_copy_calls. rewrite H1 by exact L. destruct (perform on_v on_e _ user); reflexivity.
    Qed.
  End Class.

  (** a graph with these vertices and these edges *)
  Definition shows_graph (edges_of : graph -> list gedge) (h : graph) (vs : list nat) (es : list gedge) : Prop := Permutation (G_vertices h) vs /\ Permutation (edges_of h) es.

  Lemma only_ends (C : copying -> Prop) (add_edge : graph -> nat -> nat -> graph * res (gedge * bool)) g pv pe done e u' v' st' e' :
    (forall x, In x done <-> In x (dkeys pv)) -> dget pv (source e) = Some u' -> dget pv (target e) = Some v' -> ~ In e (dkeys pe) ->
    copy_edge source target G_add_vertex add_edge e (Copying g pv pe done) = Ok st' -> C st' -> cp_edges st' = pe ++ [(e, e')] ->
    exists g' b, add_edge g u' v' = (g', Ok (e', b)) /\ C (Copying g' pv (pe ++ [(e, e')]) done).
  Proof.
    intros DN GU GV N. unfold copy_edge. cbn [cp_vertices cp_done cp_dup cp_edges]. rewrite GU, GV. assert (M : mem (target e) done = true) by (apply mem_spec, DN; apply dget_In in GV; apply (in_map fst) in GV; exact GV). rewrite M. cbn [rbind cp_dup cp_edges cp_vertices cp_done].
    destruct (add_edge g u' v') as [g' [[e2 b]|x]]; [|discriminate]. intros [= <-] K. cbn [cp_edges]. rewrite (dset_fresh _ _ _ N) in *. intros Q. apply app_inv_head in Q. injection Q as ->. exists g', b. auto.
  Qed.
  (** C123, into a Graph: the calls are the same for all callbacks; they tell each copied vertex and each copied edge once, in the order of pmap_vertices and
      pmap_edges, and the copy is the one made without callbacks. *)
  Theorem C123_graph_copy s : (forall u, NoDup (out_edges u)) -> exists g_dup pv pe done l,
    (exists bound, forall fuel, bound <= fuel -> graph_copy out_edges source target vrelevant erelevant G_add_vertex G_add_edge fuel s (G_init 0) = Some (Ok (Copying g_dup pv pe done))) /\
    (forall St on_vertex on_edge, exists bound, forall (user : St) fuel, bound <= fuel ->
       graph_copy_calls out_edges source target vrelevant erelevant G_add_edge on_vertex on_edge fuel s (G_init 0) user =
       Some (match perform on_vertex on_edge l user with Ok user' => Ok (CCopying g_dup pv pe done user') | Raise x => Raise x end)) /\
    told_vertices l = pv /\ told_edges l = pe /\ in_order source target s (shows_graph G_edges) l /\
    (forall v, In v (map fst (told_vertices l)) <-> steps (next out_edges target rel) s v) /\
    (forall e, In e (map fst (told_edges l)) <-> exists u, steps (next out_edges target rel) s u /\ In e (out_edges u) /\ erelevant e = true /\ vrelevant (target e) = true).
  Proof.
    intros ND. set (I := fun g pv pe => cinv source target [] [] (Copying g pv pe (dkeys pv) : @copying E graph)).
    destruct (copy_calls_class G_add_edge I) with (s := s) as (g_dup & pv & pe & done & l & (b & HP) & HC & TV & TE & AL & HD).
    - constructor; cbn; try constructor; try tauto; try (intros e e' []). exists (a_init 0). split; [exact (G_init_rep 0)|split; reflexivity].
    - intros g pv pe u J N. destruct (dup_inv source target vrelevant [] [] u _ J N) as (st' & u' & D & C & PV & PE). unfold dup_vertex in D. cbn [cp_dup cp_vertices cp_edges cp_done] in *.
      destruct (G_add_vertex g) as [g' [u2|x]]; [|discriminate]. injection D as <- <-. cbn [cp_vertices cp_edges] in *. exists g', u2. split; [reflexivity|].
      destruct C as [C1 C2 C3 C4 C5]. rewrite (dset_fresh _ _ _ N) in *. cbn [cp_dup cp_vertices cp_edges cp_done] in *. constructor; cbn [cp_dup cp_vertices cp_edges cp_done]; try assumption. reflexivity.
    - intros g pv pe e u' v' J GU GV N. destruct (copy_edge_inv source target vrelevant erelevant [] [] e (Copying g pv pe (dkeys pv)) J) as (st' & e' & D & C & PV & PE); [apply dget_In in GU; apply (in_map fst) in GU; exact GU|exact N|].
      destruct (only_ends (cinv source target [] []) G_add_edge g pv pe (dkeys pv) e u' v' st' e' (fun x => iff_refl _) GU GV N D C PE) as (g' & b & A & C'). exists g', e', b. auto.
    - exact ND.
    - destruct (C40_graph_copy out_edges source target FIN SRC vrelevant erelevant s ND) as (g2 & pv2 & pe2 & done2 & b2 & H1 & (_ & H2) & _ & (_ & H4) & _).
      specialize (HP (b + b2) ltac:(lia)) as HP'. rewrite H1 in HP' by lia. injection HP' as -> -> -> ->.
      exists g_dup, pv, pe, done, l. split; [exists b; exact HP|]. split; [exact HC|]. split; [exact TV|]. split; [exact TE|]. split; [|rewrite TV, TE; split; [exact H2|exact H4]].
      apply (legal_in_order source target I s); [|exact AL|exact HD]. intros g pv' pe' J. destruct (ci_a _ _ _ _ _ J) as (a & (DR & _) & V & W). cbn [cp_dup cp_vertices cp_edges app] in *. split.
      + rewrite V, <- (dr_keys _ _ _ DR). apply Permutation_refl.
      + rewrite W. apply (drep_edges _ _ _ DR).
  Qed.
  (** The same into an UndirectedGraph. *)
  Theorem C123_graph_copy_undirected s : (forall u, NoDup (out_edges u)) -> exists g_dup pv pe done l,
    (exists bound, forall fuel, bound <= fuel -> graph_copy out_edges source target vrelevant erelevant G_add_vertex UG_add_edge fuel s (G_init 0) = Some (Ok (Copying g_dup pv pe done))) /\
    (forall St on_vertex on_edge, exists bound, forall (user : St) fuel, bound <= fuel ->
       graph_copy_calls out_edges source target vrelevant erelevant UG_add_edge on_vertex on_edge fuel s (G_init 0) user =
       Some (match perform on_vertex on_edge l user with Ok user' => Ok (CCopying g_dup pv pe done user') | Raise x => Raise x end)) /\
    told_vertices l = pv /\ told_edges l = pe /\ in_order source target s (shows_graph UG_edges) l /\
    (forall v, In v (map fst (told_vertices l)) <-> steps (next out_edges target rel) s v) /\
    (forall e, In e (map fst (told_edges l)) <-> exists u, steps (next out_edges target rel) s u /\ In e (out_edges u) /\ erelevant e = true /\ vrelevant (target e) = true).
  Proof.
    intros ND. set (I := fun g pv pe => ucinv source target [] [] (Copying g pv pe (dkeys pv) : @copying E graph)).
    destruct (copy_calls_class UG_add_edge I) with (s := s) as (g_dup & pv & pe & done & l & (b & HP) & HC & TV & TE & AL & HD).
    - constructor; cbn; try constructor; try tauto; try (intros e e' []). exists (a_init 0). split; [exact (U_init_rep 0)|split; reflexivity].
    - intros g pv pe u J N. destruct (udup_inv source target vrelevant [] [] u _ J N) as (st' & u' & D & C & PV & PE). unfold dup_vertex in D. cbn [cp_dup cp_vertices cp_edges cp_done] in *.
      destruct (G_add_vertex g) as [g' [u2|x]]; [|discriminate]. injection D as <- <-. cbn [cp_vertices cp_edges] in *. exists g', u2. split; [reflexivity|].
      destruct C as [C1 C2 C3 C4 C5]. rewrite (dset_fresh _ _ _ N) in *. cbn [cp_dup cp_vertices cp_edges cp_done] in *. constructor; cbn [cp_dup cp_vertices cp_edges cp_done]; try assumption. reflexivity.
    - intros g pv pe e u' v' J GU GV N. destruct (ucopy_edge_inv source target vrelevant erelevant [] [] e (Copying g pv pe (dkeys pv)) J) as (st' & e' & D & C & PV & PE); [apply dget_In in GU; apply (in_map fst) in GU; exact GU|exact N|].
      destruct (only_ends (ucinv source target [] []) UG_add_edge g pv pe (dkeys pv) e u' v' st' e' (fun x => iff_refl _) GU GV N D C PE) as (g' & b & A & C'). exists g', e', b. auto.
    - exact ND.
    - destruct (C40_graph_copy_undirected out_edges source target FIN SRC vrelevant erelevant s ND) as (g2 & pv2 & pe2 & done2 & b2 & H1 & (_ & H2) & _ & (_ & H4) & _).
      specialize (HP (b + b2) ltac:(lia)) as HP'. rewrite H1 in HP' by lia. injection HP' as -> -> -> ->.
      exists g_dup, pv, pe, done, l. split; [exists b; exact HP|]. split; [exact HC|]. split; [exact TV|]. split; [exact TE|]. split; [|rewrite TV, TE; split; [exact H2|exact H4]].
      apply (legal_in_order source target I s); [|exact AL|exact HD]. intros g pv' pe' J. destruct (uci_a _ _ _ _ _ J) as (a & (DR & _) & V & W). cbn [cp_dup cp_vertices cp_edges app] in *. split.
      + rewrite V, <- (ur_keys _ _ _ DR). apply Permutation_refl.
      + rewrite W. apply (urep_edges _ _ _ DR).
  Qed.
End Graphs.

Section Automata.
  Context {A : Type} {EA : EqDec A}.
  Notation E := (edge A).
  Definition shows_aut (h : aut A) (vs : list nat) (es : list (option E)) : Prop := Permutation (A_vertices h) vs /\ Permutation (map Some (A_edges h)) es.
  Notation add := (fun (e : E) h u v => A_add_edge h u v (distinguisher e)).
  Definition aerase {St} (st : ccopying E (option E) (aut A) St) : acopying A := ACopying (cc_dup st) (cc_vertices st) (cc_edges st) (cc_done st).
  Lemma aerase_calls vrelevant erelevant t : forall st : ccopying E (option E) (aut A) unit,
    calls (A_copy_visitor vrelevant erelevant None) t (aerase st) =
    match calls (c_copy_visitor source target vrelevant erelevant A_add_vertex add None None) t st with Ok st' => Ok (aerase st') | Raise x => Raise x end.
  Proof.
    assert (D : forall u (st : ccopying E (option E) (aut A) unit), A_dup_vertex None u (aerase st) = match c_dup_vertex A_add_vertex None u st with Ok (st', u') => Ok (aerase st', u') | Raise x => Raise x end).
    { intros u st. reflexivity. }
    induction t as [|x t IH]; intros st; [reflexivity|]. cbn [calls]. destruct x; cbn [A_copy_visitor c_copy_visitor rbind]; try apply IH.
    - rewrite D. destruct (c_dup_vertex A_add_vertex None v st) as [[st' u']|x]; cbn [rbind]; [apply IH|reflexivity].
    - destruct (erelevant e && vrelevant (target e)); [|apply IH].
      assert (C : A_copy_edge None e (aerase st) = match c_copy_edge source target A_add_vertex add None None e st with Ok st' => Ok (aerase st') | Raise x => Raise x end).
      { unfold A_copy_edge, c_copy_edge. cbv zeta. change (ac_vertices (aerase st)) with (cc_vertices st). change (ac_done (aerase st)) with (cc_done st). destruct (dget (cc_vertices st) (source e)) as [u'|]; [|reflexivity].
        assert (F : forall st1 v', match A_add_edge (ac_dup (aerase st1)) u' v' (distinguisher e) with (_, Raise x) => Raise x | (g, Ok (e_dup, _)) => Ok (ACopying g (ac_vertices (aerase st1)) (dset (ac_edges (aerase st1)) e e_dup) (ac_done (aerase st1))) end =
            match match A_add_edge (cc_dup st1) u' v' (distinguisher e) with (_, Raise x) => Raise x | (g, Ok (e_dup, _)) => Ok (CCopying g (cc_vertices st1) (dset (cc_edges st1) e e_dup) (cc_done st1) (cc_user st1 : unit)) end with Ok st' => Ok (aerase st') | Raise x => Raise x end).
        { intros st1 v'. change (ac_dup (aerase st1)) with (cc_dup st1). destruct (A_add_edge (cc_dup st1) u' v' (distinguisher e)) as [g [[e' b]|x]]; reflexivity. }
        destruct (mem (target e) (cc_done st)).
        - destruct (dget (cc_vertices st) (target e)) as [v'|]; cbn [rbind]; [apply F|reflexivity].
        - rewrite D. destruct (c_dup_vertex A_add_vertex None (target e) st) as [[st1 v']|x]; cbn [rbind]; [apply F|reflexivity]. }
      rewrite C. destruct (c_copy_edge source target A_add_vertex add None None e st); cbn [rbind]; [apply IH|reflexivity].
  Qed.
  (** C123 for automata: the copied edges keep their labels, which is said of pmap_edges by C78. *)
  Theorem C123_automaton_copy n (ops : list (aop A)) (vrelevant : nat -> bool) (erelevant : E -> bool) s : let g := fst (runs A_call (A_init n) ops) in
    let reached := steps (fun u v => exists e, In e (A_edges g) /\ source e = u /\ target e = v /\ erelevant e = true /\ vrelevant v = true) s in
    exists h pv pe done l,
    (exists bound, forall fuel, bound <= fuel -> automaton_copy g vrelevant erelevant None fuel s (A_init 0) (Some []) (Some []) = Some (Ok (ACopying h pv pe done))) /\
    (forall St on_vertex on_edge, exists bound, forall (user : St) fuel, bound <= fuel ->
       automaton_copy_calls g vrelevant erelevant on_vertex on_edge fuel s (A_init 0) user =
       Some (match perform on_vertex on_edge l user with Ok user' => Ok (CCopying h pv pe done user') | Raise x => Raise x end)) /\
    told_vertices l = pv /\ told_edges l = pe /\ in_order source target s shows_aut l /\
    (forall v, In v (map fst (told_vertices l)) <-> reached v) /\
    (forall e, In e (map fst (told_edges l)) <-> In e (A_edges g) /\ reached (source e) /\ erelevant e = true /\ vrelevant (target e) = true) /\
    (forall e e', In (e, e') (told_edges l) -> exists u v, e' = Some (Edge u v (distinguisher e)) /\ In (source e, u) (told_vertices l) /\ In (target e, v) (told_vertices l)).
  Proof.
    intros g reached. destruct (C78_automaton_copy_partial A EA n ops vrelevant erelevant None (fun _ => false) s (fun _ _ _ => eq_refl)) as (h2 & pv2 & pe2 & done2 & b2 & H1 & (_ & H2) & _ & (_ & H4) & (_ & H5) & H6 & _). fold g in H1, H2, H4, H5, H6. fold reached in H2, H4.
    destruct (arep_runs n ops) as [RG _]. change (fst (runs A_call (A_init n) ops)) with g in RG. set (sg := fst (runs aa_step _ _)) in RG. clearbody g sg.
    pose proof RG as (_ & _ & W & TRG & _).
    set (rel := fun e : edge A => erelevant e && vrelevant (target e)).
    assert (IE : forall q r a, In (Edge q r a) (A_edges g) <-> tr (au_adj g) q a = Some r) by (intros; apply In_tedges; exact W).
    assert (OE : forall u e, In e (A_out_edges g u) <-> In e (A_edges g) /\ source e = u).
    { intros u [q r a]. cbn. unfold A_out_edges. rewrite IE. unfold tr. split.
      - destruct (dget (au_adj g) u) as [d|] eqn:D; [|intros []]. intros J. apply in_map_iff in J. destruct J as ([a' r'] & [= <- -> ->] & J). rewrite D. split; [|reflexivity]. apply In_dget; [apply (proj2 W _ _ D)|exact J].
      - intros [T ->]. destruct (dget (au_adj g) u) as [d|]; [|discriminate]. apply in_map_iff. exists (a, r). split; [reflexivity|apply dget_In, T]. }
    assert (DET : forall e e', In e (A_edges g) -> In e' (A_edges g) -> source e = source e' -> distinguisher e = distinguisher e' -> e = e').
    { intros [q r a] [q' r' a'] J K. cbn. intros -> ->. apply IE in J, K. congruence. }
    destruct (dfs_white (A_out_edges g) target rel (A_finite g) s [] eq_refl) as (t & c' & R).
    destruct (proj1 (run_edges (A_out_edges g) target rel) _ _ _ _ _ R) as (E1 & E2 & E3).
    pose proof (proj1 (run_facts (A_out_edges g) target rel) _ _ _ _ _ R) as F.
    assert (XR : forall e, In e (examined t) -> In e (A_edges g) /\ rel e = true).
    { intros e J. apply (Permutation_in _ E1) in J. apply in_flat_map in J. destruct J as (u & _ & J). apply filter_In in J. destruct J as [J1 J2]. apply OE in J1. tauto. }
    assert (NX : NoDup (examined t)).
    { eapply Permutation_NoDup; [apply Permutation_sym, E1|]. pose proof (f_nodup _ _ _ F) as N. revert N. generalize (discovered t) as l. induction l as [|u l IH]; cbn; intros N; [constructor|].
      inversion N as [|? ? N1 N2]; subst. apply NoDup_app_intro; [apply NoDup_filter|apply IH, N2|].
      - unfold A_out_edges. destruct (dget (au_adj g) u) as [d|] eqn:Du; [|constructor]. assert (ND : NoDup (dkeys d)) by apply (proj2 W _ _ Du). apply (NoDup_map_inv distinguisher). rewrite map_map. erewrite map_ext; [exact ND|]. intros [a r]. reflexivity.
      - intros e J K. apply filter_In in J. apply in_flat_map in K. destruct K as (u' & K1 & K2). apply filter_In in K2. destruct J as [J _], K2 as [K2 _]. apply OE in J, K2. destruct J as [_ <-], K2 as [_ <-]. exact (N1 K1). }
    set (I := fun (h : aut A) pv pe => acinv (fun _ => false) (aa_init 0) (ACopying h pv pe (dkeys pv)) /\ forall e, In e (dkeys pe) -> In e (A_edges g)).
    destruct (copy_whole source target vrelevant erelevant A_add_vertex add I (fun e => In e (A_edges g))) with (s := s) (out_edges := A_out_edges g) (g0 := A_init (A := A) 0) (t := t) (c' := c') as (k & K & HD & H).
    - intros h pv pe u [J JE] N. destruct (a_dup_inv None (fun _ => false) (fun _ _ _ => eq_refl) (aa_init 0) (fun _ X => match X with end) (fun _ X => match X with end) u _ J N) as (st' & u' & D & C & PV & PE). unfold A_dup_vertex in D. cbn [ac_dup ac_vertices ac_edges ac_done] in *.
      destruct (A_add_vertex h) as [h' [u2|x]]; [|discriminate]. injection D as <- <-. cbn [ac_vertices ac_edges] in *. exists h', u2. split; [reflexivity|]. split; [|exact JE].
      destruct C as [C1 C2 C3 C4 C5 C6]. rewrite (dset_fresh _ _ _ N) in *. cbn [ac_dup ac_vertices ac_edges ac_done] in *. constructor; cbn [ac_dup ac_vertices ac_edges ac_done]; try assumption. reflexivity.
    - intros h pv pe e u' v' [J JE] GE GU GV N. destruct (a_copy_edge_inv None (fun _ => false) (fun _ _ _ => eq_refl) (aa_init 0) (fun _ X => match X with end) (fun _ X => match X with end) e (ACopying h pv pe (dkeys pv)) J) as (st' & e' & D & C & _ & PV & PE); [apply dget_In in GU; apply (in_map fst) in GU; exact GU|exact N|intros e2 J2 S2 L2; apply DET; auto|].
      unfold A_copy_edge in D. cbn [ac_dup ac_vertices ac_edges ac_done] in *. rewrite GU, GV in D. assert (M : mem (target e) (dkeys pv) = true) by (apply mem_spec; apply dget_In in GV; apply (in_map fst) in GV; exact GV). rewrite M in D. cbn [rbind ac_dup ac_edges ac_vertices ac_done] in D.
      destruct (A_add_edge h u' v' (distinguisher e)) as [h' [[e2 b]|x]]; [|discriminate]. injection D as <-. cbn [ac_edges] in PE. rewrite (dset_fresh _ _ _ N) in *. apply app_inv_head in PE. injection PE as ->.
      exists h', (Some e'), b. split; [reflexivity|]. split; [exact C|]. intros e3 J3. rewrite dkeys_snoc in J3. apply in_app_or in J3. destruct J3 as [J3|[<-|[]]]; [apply JE, J3|exact GE].
    - split; [|intros e []]. constructor; cbn; try constructor; try tauto. exists [], (fun _ => false). split; [apply (arep_init 0)|]. split; [reflexivity|]. split; [intros u u' []|reflexivity].
    - exact R.
    - intros u e J. apply OE in J. apply J.
    - exact NX.
    - apply Forall_forall. intros e J. apply XR, J.
    - apply Forall_forall. intros e J. apply XR, J.
    - assert (HP : exists bound, forall fuel, bound <= fuel -> automaton_copy g vrelevant erelevant None fuel s (A_init 0) (Some []) (Some []) = Some (Ok (ACopying (k_g k) (k_pv k) (k_pe k) (k_done k)))).
      { destruct (H unit None None) as (b1 & G1).
        destruct (dfs_run (A_out_edges g) target rel (A_copy_visitor vrelevant erelevant None) s [] t c' R) as (b4 & G2).
        destruct (dfs_run (A_out_edges g) target rel (c_copy_visitor source target vrelevant erelevant A_add_vertex add (None : option (nat -> nat -> aut A -> unit -> res unit)) None) s [] t c' R) as (b3 & G3).
        exists (b1 + b4 + b3). intros fuel L. specialize (G1 tt fuel ltac:(lia)). unfold c_copy in G1. rewrite G3 in G1 by lia.
        unfold automaton_copy. rewrite G2 by lia. unfold after in *. change (ACopying (A_init 0) [] [] []) with (aerase (CCopying (A_init 0) [] [] [] tt : ccopying E (option E) (aut A) unit)). rewrite aerase_calls.
        assert (P : forall l : list (dup_call E (option E) (aut A)), perform None None l tt = Ok tt) by (induction l as [|[] l IH]; [reflexivity| |]; exact IH). rewrite P in G1.
        destruct (calls _ (Start s :: t) (CCopying (A_init 0) [] [] [] tt)) as [st'|x]; cbn [result rbind] in *; [|discriminate]. injection G1 as ->. reflexivity. }
      exists (k_g k), (k_pv k), (k_pe k), (k_done k), (k_calls k). split; [exact HP|]. split; [|split; [apply K|split; [apply K|]]].
      { intros St on_v on_e. destruct (H St on_v on_e) as (b & G1). exists b. intros user fuel L. unfold automaton_copy_calls. rewrite G1 by exact L. destruct (perform on_v on_e _ user); reflexivity. }
      destruct HP as (b & HP). specialize (HP (b + b2) ltac:(lia)). rewrite H1 in HP by lia. injection HP as -> -> -> ->. rewrite (ki_v _ _ _ _ K), (ki_e _ _ _ _ K). split; [|split; [exact H2|split; [exact H4|]]].
      + apply (legal_in_order source target I s); [|apply K|exact HD]. intros h pv pe [J _]. destruct (ai_a _ _ _ J) as (T & f & RH & ET & _). pose proof (ai_v _ _ _ J) as V. cbn [ac_dup ac_vertices ac_edges] in *. pose proof RH as (_ & RV & WH & TH & _). cbn in RV, TH. split.
        * rewrite V. unfold A_vertices. rewrite RV. apply Permutation_refl.
        * rewrite ET. apply Permutation_map. apply NoDup_Permutation; [apply NoDup_tedges, WH|apply TH|]. intros [q r a]. rewrite (In_tedges _ _ _ _ WH). symmetry. apply TH.
      + intros e o J. assert (ON : exists e', o = Some e').
        { assert (J' : In o (map snd (k_pe k))) by (apply (in_map snd) in J; exact J). apply (Permutation_in _ H5) in J'. apply in_map_iff in J'. destruct J' as (e' & <- & _). eauto. }
        destruct ON as ([u v a] & ->). destruct (H6 _ _ J) as (J1 & J2 & L). cbn in J1, J2, L. subst a. exists u, v. auto.
  Qed.
End Automata.

(** The calls on the graph of C40_example, from 0, with 2 irrelevant: 0 -> 1 (twice), 1 -> 0, 1 -> 2, 3 -> 0. The callbacks record what they are told and the
    numbers of vertices and edges of g_dup at this moment. *)
Definition c123_graph := fst (run DG_call (G_init 4) [OpAddEdge 0 1; OpAddEdge 0 1; OpAddEdge 1 0; OpAddEdge 1 2; OpAddEdge 3 0]).
Definition c123_size (h : graph) := (length (G_vertices h), length (G_edges h)).
Example C123_hypotheses : finite_graph (G_out_edges c123_graph) target /\ (forall u e, In e (G_out_edges c123_graph u) -> source e = u) /\ forall u, NoDup (G_out_edges c123_graph u).
Proof. split; [apply G_finite|]. split; [apply G_source|]. intros u. apply NoDup_out_edges. apply (DG_wf 4). Qed.
Example C123_example :
  match graph_copy_calls (G_out_edges c123_graph) source target (fun v => negb (eqb v 2)) (fun _ => true) G_add_edge
    (Some (fun u u' h l => Ok (l ++ [(inl (u, u'), c123_size h)]))) (Some (fun e e' h l => Ok (l ++ [(inr (e, e'), c123_size h)]))) 40 0 (G_init 0) [] with
  | Some (Ok st) => cc_user st = [(inl (0, 0), (1, 0)); (inl (1, 1), (2, 0)); (inr (Edge 0 1 0, Edge 0 1 0), (2, 1)); (inr (Edge 1 0 0, Edge 1 0 0), (2, 2)); (inr (Edge 0 1 1, Edge 0 1 1), (2, 3))]
  | _ => False
  end.
Proof. vm_compute. reflexivity. Qed.
(** a callback that raises at the second edge *)
Example C123_raise :
  graph_copy_calls (G_out_edges c123_graph) source target (fun _ => true) (fun _ => true) G_add_edge
    None (Some (fun e e' h n => if eqb n 1 then Raise ValueError else Ok (S n))) 40 0 (G_init 0) 0 = Some (Raise ValueError).
Proof. vm_compute. reflexivity. Qed.
Example C123_automaton_example :
  let g := fst (runs A_call (A_init 3) [AAddEdge 0 1 7; AAddEdge 1 0 8; AAddEdge 1 2 7; AAddEdge 2 2 7]) in
  match automaton_copy_calls g (fun v => negb (eqb v 2)) (fun _ => true) (Some (fun u u' h l => Ok (l ++ [inl (u, u')]))) (Some (fun e e' h l => Ok (l ++ [inr (e, e')]))) 40 1 (A_init 0) [] with
  | Some (Ok st) => cc_user st = [inl (1, 0); inl (0, 1); inr (Edge 1 0 8, Some (Edge 0 1 8)); inr (Edge 0 1 7, Some (Edge 1 0 7))]
  | _ => False
  end.
Proof. vm_compute. reflexivity. Qed.

Print Assumptions C123_graph_copy.
Print Assumptions C123_graph_copy_undirected.
Print Assumptions C123_automaton_copy.
