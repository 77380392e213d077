(** The round trip through dot strings. *)
From Coq Require Import String.
From Verif Require Import Str Regexp Graph GraphSpec GraphProofs GraphProofs2 GraphProofs3 Graphviz GraphvizSpec GraphvizProofs GraphvizProofs2.
From Verif Require Import Base BaseProofs.
Open Scope string_scope.
Open Scope nat_scope.
Open Scope list_scope.
#[local] Arguments dkeys : simpl never.

(** ** The attributes stay on one line *)
Lemma one_line_concat l : Forall one_line l -> one_line (concat l).
Proof. intros F. induction F as [|x l Ox F IH]; [intros c []|]. cbn. apply one_line_app. auto. Qed.
Lemma one_line_join sep l : one_line sep -> Forall one_line l -> one_line (join sep l).
Proof.
  intros Os F. induction F as [|x l Ox F IH]; [intros c []|]. destruct l as [|y l]; [exact Ox|].
  change (join sep (x :: y :: l)) with (x ++ sep ++ join sep (y :: l)). rewrite !one_line_app. auto.
Qed.
Lemma clean_one_line s : Forall clean s -> (forall c, In c s -> ~ In c [133; 8232; 8233]%N) -> one_line s.
Proof.
  intros F H c I J. rewrite Forall_forall in F. destruct (F c I) as (_ & L). specialize (H c I). cbn in J, H.
  repeat (destruct J as [<-|J]; [first [lia|tauto]|]). destruct J.
Qed.
Lemma code_one_line c : special c -> one_line (code_of c).
Proof.
  intros S. apply one_line_lit. apply (specials_all (fun c => forallb (fun x => negb (linebreak x)) (code_of c))); [vm_compute; reflexivity|exact S].
Qed.
Lemma escapes_one_line s l : escapes s l -> one_line s \/ (~ In (ch "<") s /\ forall c, In c s -> ~ In c [133; 8232; 8233]%N) ->
  one_line (concat (map snd l)).
Proof.
  intros E. induction E as [|t s l T _ IH|c s l N S _ IH|c s l S _ IH]; intros H; cbn [map concat snd].
  - intros c [].
  - apply one_line_app. destruct H as [H|(H & _)].
    + apply one_line_app in H. destruct H as (H1 & H2). auto.
    + destruct H. destruct (html_tag_lt t T) as (u & ->). left. reflexivity.
  - apply one_line_app. split; [apply code_one_line; exact S|]. apply IH. destruct H as [H|(H & K)]; [left; intros x I; apply H; right; exact I|].
    right. split; [intros I; apply H; right; exact I|]. intros x I. apply K. right. exact I.
  - apply one_line_app. split.
    + intros x [<-|[]] J. destruct H as [H|(_ & K)]; [exact (H c (or_introl eq_refl) J)|]. specialize (K c (or_introl eq_refl)).
      apply S. right. cbn in J, K. repeat (destruct J as [<-|J]; [first [reflexivity|tauto]|]). destruct J.
    + apply IH. destruct H as [H|(H & K)]; [left; intros x I; apply H; right; exact I|].
      right. split; [intros I; apply H; right; exact I|]. intros x I. apply K. right. exact I.
Qed.

Lemma dx_form p d : forallb (fun c => negb (linebreak c)) p = true -> pairs_ok d ->
  graphviz_dx_to_dot p d = [] \/ (exists r, graphviz_dx_to_dot p d = p ++ r) /\ one_line (graphviz_dx_to_dot p d).
Proof.
  intros P D. destruct d as [|kv d]; [left; reflexivity|]. right. split; [eexists; reflexivity|]. unfold graphviz_dx_to_dot.
  rewrite !one_line_app. repeat split; try (apply one_line_lit; (reflexivity || exact P)). apply one_line_join; [apply one_line_lit; reflexivity|].
  rewrite Forall_map. apply Forall_forall. intros (k, v) I. destruct (D k v I) as (K & V). rewrite !one_line_app. repeat split; try (apply one_line_lit; reflexivity); assumption.
Qed.

Section Trip.
  Variable tags : list str.
  Hypothesis Htags : Permutation tags GRAPHVIZ_SUPPORTED_HTML_TAGS.

  Lemma props_form {X} (x : X) l d : In x l -> attrs_ok d l -> opts_form (graphviz_properties_to_str tags x d).
  Proof.
    intros I D. destruct d as [|kp d]; [left; reflexivity|]. right. eexists. split; [reflexivity|]. apply one_line_join; [apply one_line_lit; reflexivity|].
    apply Forall_forall. intros s J. apply in_flat_map in J. destruct J as ((k, p) & J & K). destruct (D k p J) as (Ok & V).
    destruct (p x) as [v|] eqn:E; [|destruct K]. specialize (V x v I E). destruct K as [<-|[]]. destruct (eqb_spec k (lit "label")) as [->|N].
    - rewrite !one_line_app. repeat split; try (apply one_line_lit; reflexivity). destruct (escapes_total tags Htags v) as (l' & Es).
      rewrite (escape_escapes tags Htags v l' Es). apply (escapes_one_line v l' Es). destruct V as [V|(_ & V)]; auto.
    - destruct V as [V|(C & _)]; [|contradiction]. rewrite !one_line_app. repeat split; try (apply one_line_lit; reflexivity); assumption.
  Qed.
  Lemma opts_one_line p : opts_form p -> one_line p.
  Proof.
    intros [-> | (b & -> & O)]; [intros c []|]. rewrite !one_line_app. repeat split; try (apply one_line_lit; reflexivity). exact O.
  Qed.

  (** The instructions before those of the vertices *)
  Definition preamble (o : dot_args) : list str :=
    if_truthy (match graphviz_style o with None => default_graphviz_style | Some s => s end) ++
    if_truthy (graphviz_dx_to_dot (lit "graph") (dg o)) ++
    if_truthy (graphviz_dx_to_dot (lit "node") (dv o)) ++ if_truthy (graphviz_dx_to_dot (lit "edge") (de o)) ++ if_truthy (extra_style o).
  Definition quiet (i : str) : Prop := one_line i /\ nodigit (as_line i).
  Lemma quiet_truthy s : (s = [] \/ quiet s) -> Forall quiet (if_truthy s).
  Proof. intros [-> |Q]; [constructor|]. destruct s; [constructor|]. constructor; [exact Q|constructor]. Qed.
  Lemma quiet_style s : style_ok s -> quiet s.
  Proof. intros S. split; [apply S|]. apply style_nodigit. exact S. Qed.
  Lemma quiet_dx p d : forallb (fun c => negb (linebreak c)) p = true -> (forall r, nodigit (as_line (p ++ r))) -> pairs_ok d ->
    graphviz_dx_to_dot p d = [] \/ quiet (graphviz_dx_to_dot p d).
  Proof.
    intros P N D. destruct (dx_form p d P D) as [E|((r & E) & O)]; [left; exact E|]. right. split; [exact O|]. rewrite E. apply N.
  Qed.
  Lemma preamble_quiet V E o : args_ok V E o -> Forall quiet (preamble o).
  Proof.
    intros (A1 & A2 & A3 & A4 & A5 & _ & _). unfold preamble. rewrite !Forall_app. repeat split; apply quiet_truthy.
    - destruct (graphviz_style o) as [s|]; [right; apply quiet_style; exact A1|]. right. split; [apply one_line_lit; vm_compute; reflexivity|].
      vm_compute. intuition discriminate.
    - apply quiet_dx; [reflexivity| |exact A3]. intros r. vm_compute. intuition discriminate.
    - apply quiet_dx; [reflexivity| |exact A4]. intros r. vm_compute. intuition discriminate.
    - apply quiet_dx; [reflexivity| |exact A5]. intros r. vm_compute. intuition discriminate.
    - right. apply quiet_style. exact A2.
  Qed.

  (** The lines of the dot string *)
  Lemma to_dot_lines directed V E o : args_ok V E o ->
    exists first last, splitlines (to_dot tags directed V E o) =
      first :: map as_line (preamble o ++ map (fun u => vertex_to_graphviz tags u (dpv o)) V ++
                            map (fun e => edge_to_graphviz tags directed e (dpe o)) E) ++ last /\
      nodigit first /\ Forall nodigit last.
  Proof.
    intros A. pose proof (preamble_quiet V E o A) as Q. destruct A as (_ & _ & _ & _ & _ & AV & AE).
    set (L := preamble o ++ map (fun u => vertex_to_graphviz tags u (dpv o)) V ++ map (fun e => edge_to_graphviz tags directed e (dpe o)) E).
    assert (OL : Forall one_line L).
    { unfold L. rewrite !Forall_app. repeat split.
      - eapply Forall_impl; [|exact Q]. intros i X. apply X.
      - rewrite Forall_map. apply Forall_forall. intros u I. unfold vertex_to_graphviz. apply one_line_join; [apply one_line_lit; reflexivity|].
        repeat constructor; [apply one_line_str_nat|]. apply opts_one_line, (props_form u V); assumption.
      - rewrite Forall_map. apply Forall_forall. intros e I. unfold edge_to_graphviz. apply one_line_join; [apply one_line_lit; reflexivity|].
        repeat constructor; try apply one_line_str_nat.
        + destruct directed; apply one_line_lit; reflexivity.
        + apply opts_one_line, (props_form e E); assumption. }
    assert (ET : to_dot tags directed V E o = graphviz_type directed ++ lit " G {" ++
      match L with [] => [] | _ => 10%N :: lit "  " ++ join (lit ";" ++ 10%N :: lit "  ") L ++ lit ";" ++ [10%N] end ++ lit "}").
    { unfold to_dot, L, preamble. rewrite <- !app_assoc. reflexivity. }
    rewrite ET. clear ET. assert (Dec : {L = []} + {L <> []}) by (destruct L; [left; reflexivity|right; discriminate]). destruct Dec as [EL|NE].
    - rewrite EL. cbn [map app]. destruct directed; eexists; exists []; (split; [vm_compute; reflexivity|]); (split; [vm_compute; intuition discriminate|constructor]).
    - assert (EM : match L with [] => [] | _ => 10%N :: lit "  " ++ join (lit ";" ++ 10%N :: lit "  ") L ++ lit ";" ++ [10%N] end =
        10%N :: lit "  " ++ join (lit ";" ++ 10%N :: lit "  ") L ++ lit ";" ++ [10%N]) by (destruct L; [contradiction|reflexivity]).
      rewrite EM. exists (graphviz_type directed ++ lit " G {"), [lit "}"]. split; [|split].
      + rewrite app_assoc. cbn [app]. rewrite splitlines_line by (destruct directed; apply one_line_lit; reflexivity). f_equal.
        rewrite <- !app_assoc. cbn [app]. rewrite join_lines by assumption. reflexivity.
      + destruct directed; vm_compute; intuition discriminate.
      + constructor; [|constructor]. vm_compute. intuition discriminate.
  Qed.

  Section Read.
    Variable add_edge : graph -> nat -> nat -> graph * res (gedge * bool).

    Lemma read_vertices V0 d V : incl V V0 -> attrs_ok d V0 -> NoDup V -> forall g al k, drep g (seq 0 k) [] -> last_vertex_id g = k ->
      exists g' al', foreach (read_line add_edge) (g, al) (map as_line (map (fun u => vertex_to_graphviz tags u d) V)) = ((g', al'), Ok tt) /\
        drep g' (seq 0 (k + List.length V)) [] /\
        map (fun u => dget al' (str_nat u)) V = map Some (seq k (List.length V)) /\
        forall u, ~ In u V -> dget al' (str_nat u) = dget al (str_nat u).
    Proof.
      intros IV A ND. revert IV. induction ND as [|u V NI ND IH]; intros IV g al k R L.
      - exists g, al. cbn. rewrite Nat.add_0_r. auto.
      - cbn [map foreach]. unfold vertex_to_graphviz at 1. rewrite read_vertex by (apply (props_form u V0); [apply IV; left; reflexivity|exact A]).
        unfold on_vertex. cbn [fst snd]. destruct (G_add_vertex g) as [g1 r] eqn:E1. unfold G_add_vertex in E1. injection E1 as E1 <-.
        assert (R1 : drep g1 (seq 0 (S k)) []).
        { pose proof (drep_add_vertex g (seq 0 k) [] R) as X. unfold G_add_vertex in X. cbn [fst] in X. rewrite E1, L in X. rewrite seq_S.
          apply X. intros I. apply in_seq in I. lia. }
        destruct (IH (fun x I => IV x (or_intror I)) g1 (dset al (str_nat u) (last_vertex_id g)) (S k) R1) as (g' & al' & EF & R' & M & O).
        { rewrite <- E1. cbn. rewrite L. reflexivity. }
        exists g', al'. split; [exact EF|]. cbn [List.length]. replace (k + S (List.length V)) with (S k + List.length V) by lia. split; [exact R'|]. split.
        + cbn [seq map]. rewrite M. f_equal. rewrite O by exact NI. rewrite dget_dset, eqb_refl. rewrite L. reflexivity.
        + intros v NV. rewrite O by (intros I; apply NV; right; exact I). rewrite dget_dset.
          destruct (eqb_spec (str_nat v) (str_nat u)) as [E|]; [|reflexivity]. destruct NV. left. apply str_nat_inj. auto.
    Qed.
  End Read.

  Lemma read_edges (E0 : list gedge) d E : incl E E0 -> attrs_ok d E0 -> forall g al V' E' f, drep g V' E' ->
    (forall e, In e E -> dget al (str_nat (source e)) = Some (f (source e)) /\ dget al (str_nat (target e)) = Some (f (target e)) /\ In (f (source e)) V') ->
    exists g' E'', foreach (read_line G_add_edge) (g, al) (map as_line (map (fun e => edge_to_graphviz tags true e d) E)) = ((g', al), Ok tt) /\
      drep g' V' E'' /\ map ends E'' = map ends E' ++ map (fun e => (f (source e), f (target e))) E.
  Proof.
    intros IE A. induction E as [|e E IH]; intros g al V' E' f R H.
    - exists g, E'. cbn. rewrite app_nil_r. auto.
    - cbn [map foreach]. unfold edge_to_graphviz at 1. change (graphviz_arc true) with (lit "->").
      rewrite read_arc by (apply (props_form e E0); [apply IE; left; reflexivity|exact A]). destruct (H e (or_introl eq_refl)) as (Hs & Ht & Iv).
      unfold on_edge. cbn [fst snd]. rewrite Hs, Ht. destruct (drep_add_edge g V' E' (f (source e)) (f (target e)) R Iv) as (g1 & E1 & _ & R1). rewrite E1.
      destruct (IH (fun x I => IE x (or_intror I)) g1 al V' _ f R1 (fun x I => H x (or_intror I))) as (g' & E'' & EF & R' & M).
      exists g', E''. split; [exact EF|]. split; [exact R'|]. rewrite M, map_app, <- app_assoc. reflexivity.
  Qed.

  Lemma map_Some_inj {X} (l l' : list X) : map Some l = map Some l' -> l = l'.
  Proof. revert l'. induction l as [|x l IH]; intros [|y l'] E; cbn in E; try discriminate; [reflexivity|]. injection E as -> E. f_equal. auto. Qed.
  Lemma NoDup_map_inj (f : nat -> nat) l : NoDup (map f l) -> forall u v, In u l -> In v l -> f u = f v -> u = v.
  Proof.
    induction l as [|x l IH]; intros N u v Iu Iv E; [destruct Iu|]. cbn in N. apply NoDup_cons_iff in N. destruct N as (NI & N).
    destruct Iu as [->|Iu], Iv as [->|Iv]; auto.
    - destruct NI. rewrite E. apply in_map. exact Iv.
    - destruct NI. rewrite <- E. apply in_map. exact Iu.
  Qed.

  Lemma drep_empty_graph : drep (G_init 0) [] [].
  Proof. apply (G_init_rep 0). Qed.

  Lemma directed_trip g o : wf_adj (adjacencies g) -> args_ok (G_vertices g) (G_edges g) o ->
    (forall e, In e (G_edges g) -> In (target e) (G_vertices g)) ->
    exists g', read_graphviz G_add_edge (DG_to_dot tags g o) (G_init 0) = (g', Ok tt) /\
      exists f, renamed f (G_vertices g) (G_edges g) (G_vertices g') (G_edges g').
  Proof.
    intros W A C. unfold read_graphviz, DG_to_dot. destruct (to_dot_lines true _ _ o A) as (first & last & E & Q1 & Q2). rewrite E. clear E.
    pose proof (preamble_quiet _ _ o A) as Q. destruct A as (_ & _ & _ & _ & _ & AV & AE).
    cbn [foreach]. rewrite read_quiet by exact Q1. cbv beta iota. rewrite !map_app, <- !app_assoc.
    rewrite (foreach_app _ _ _ _ (G_init 0, [])).
    2:{ apply foreach_noop. intros x I. apply in_map_iff in I. destruct I as (i & <- & I). apply read_quiet. rewrite Forall_forall in Q. apply Q. exact I. }
    assert (ND : NoDup (G_vertices g)) by apply W.
    destruct (read_vertices G_add_edge (G_vertices g) (dpv o) (G_vertices g) (fun x I => I) AV ND (G_init 0) [] 0 drep_empty_graph eq_refl) as (g1 & al & E1 & R1 & M & _).
    rewrite (foreach_app _ _ _ _ _ E1). cbn [Nat.add] in R1.
    set (f := fun u => match dget al (str_nat u) with Some i => i | None => 0 end).
    assert (Hf : forall u, In u (G_vertices g) -> dget al (str_nat u) = Some (f u) /\ In (f u) (seq 0 (List.length (G_vertices g)))).
    { intros u I. unfold f. assert (X : In (dget al (str_nat u)) (map Some (seq 0 (List.length (G_vertices g))))).
      { rewrite <- M. apply (in_map (fun u => dget al (str_nat u))). exact I. }
      apply in_map_iff in X. destruct X as (i & <- & I'). auto. }
    assert (Mf : map f (G_vertices g) = seq 0 (List.length (G_vertices g))).
    { apply map_Some_inj. rewrite <- M, map_map. apply map_ext_in. intros u I. symmetry. apply Hf. exact I. }
    destruct (read_edges (G_edges g) (dpe o) (G_edges g) (fun x I => I) AE g1 al _ [] f R1) as (g' & E' & E2 & R2 & M2).
    { intros e I. pose proof (C e I) as It. assert (Is : In (source e) (G_vertices g)).
      { apply In_edges in I; [|exact W]. apply asets_key in I. exact I. }
      destruct (Hf _ Is) as (F1 & F2). destruct (Hf _ It) as (F3 & _). auto. }
    rewrite (foreach_app _ _ _ _ _ E2). rewrite foreach_noop.
    2:{ intros x I. apply read_quiet. rewrite Forall_forall in Q2. auto. }
    exists g'. split; [reflexivity|]. exists f. split; [|split].
    - apply NoDup_map_inj. rewrite Mf. apply seq_NoDup.
    - rewrite Mf. apply (dr_keys _ _ _ R2).
    - cbn [map app] in M2. rewrite <- M2. apply Permutation_map. eapply drep_edges. exact R2.
  Qed.

  Lemma undirected_trip g o : wf_adj (adjacencies g) -> args_ok (G_vertices g) (UG_edges g) o ->
    exists g', read_graphviz UG_add_edge (UG_to_dot tags g o) (G_init 0) = (g', Ok tt) /\
      G_vertices g' = seq 0 (G_num_vertices g) /\ UG_edges g' = [].
  Proof.
    intros W A. unfold read_graphviz, UG_to_dot. destruct (to_dot_lines false _ _ o A) as (first & last & E & Q1 & Q2). rewrite E. clear E.
    pose proof (preamble_quiet _ _ o A) as Q. destruct A as (_ & _ & _ & _ & _ & AV & AE).
    cbn [foreach]. rewrite read_quiet by exact Q1. cbv beta iota. rewrite !map_app, <- !app_assoc.
    rewrite (foreach_app _ _ _ _ (G_init 0, [])).
    2:{ apply foreach_noop. intros x I. apply in_map_iff in I. destruct I as (i & <- & I). apply read_quiet. rewrite Forall_forall in Q. apply Q. exact I. }
    assert (ND : NoDup (G_vertices g)) by apply W.
    destruct (read_vertices UG_add_edge (G_vertices g) (dpv o) (G_vertices g) (fun x I => I) AV ND (G_init 0) [] 0 drep_empty_graph eq_refl) as (g1 & al & E1 & R1 & M & _).
    rewrite (foreach_app _ _ _ _ _ E1). cbn [Nat.add] in R1.
    rewrite (foreach_app _ _ _ _ (g1, al)).
    2:{ apply foreach_noop. intros x I. rewrite map_map in I. apply in_map_iff in I. destruct I as (e & <- & _). apply read_undirected. }
    rewrite foreach_noop.
    2:{ intros x I. apply read_quiet. rewrite Forall_forall in Q2. auto. }
    exists g1. split; [reflexivity|]. split; [apply (dr_keys _ _ _ R1)|]. pose proof (urep_edges _ _ _ (urep_of_empty_drep _ _ R1)) as P.
    apply Permutation_sym, Permutation_nil in P. exact P.
  Qed.
End Trip.
