(** Theorem C100: the DOT text of a view. *)
From Coq Require Import String Lia.
From Verif Require Import Str Graph Automaton View Graphviz GraphvizSpec GraphvizProofs GraphvizProofs2 GraphDp TGraphDp DotSpec DotProofs DotProofs2 TDot AutDot TAutDot.
From Verif Require Import Base BaseProofs.
Open Scope string_scope.
Open Scope nat_scope.
Open Scope list_scope.

(** ** Specification *)

(** [l] lists each selected item exactly once *)
Definition lists {X} (l : list X) (P : X -> Prop) : Prop := NoDup l /\ forall x, In x l <-> P x.
(** what the view selects, among the items given by the caller *)
Definition given_in {X} (x : X) (l : option (list X)) : Prop := match l with Some l => In x l | None => True end.
Definition shows_vertex {D} (w : @view (edge D)) (k : kwargs_of D) (u : nat) : Prop :=
  In u (api_vertices (vg w)) /\ vrel w u = true /\ given_in u (kw_vs k).
Definition shows_edge {D} (w : @view (edge D)) (k : kwargs_of D) (e : edge D) : Prop :=
  In e (api_edges (vg w)) /\ erel w e = true /\ vrel w (source e) = true /\ vrel w (target e) = true /\ given_in e (kw_es k).
(** the methods source and target of the graph are those of EdgeDescriptor *)
Definition direct {D} (w : @view (edge D)) : Prop := forall e, api_source (vg w) e = source e /\ api_target (vg w) e = target e.

(** ** Lemmas *)

Section Lists.
  Context {D : Type} {ED : EqDec D}.
  Variables (w : @view (edge D)) (ovs : list nat -> list nat) (oes : list (edge D) -> list (edge D)) (k : kwargs_of D).
  Hypothesis Hv : forall l, Permutation (ovs l) l.
  Hypothesis He : forall l, Permutation (oes l) l.
  Hypothesis Hd : direct w.
  Definition drawn_vs : list nat := ovs (match kw_vs k with Some vs_ => filter (fun u => mem u vs_) (sof (view_vertices w)) | None => sof (view_vertices w) end).
  Definition drawn_es : list (edge D) := oes (match kw_es k with Some es_ => filter (fun e => mem e es_) (sof (view_edges w)) | None => sof (view_edges w) end).
  Lemma lists_perm {X} (l l' : list X) P : Permutation l l' -> lists l' P -> lists l P.
  Proof.
    intros Q [N I]. split; [apply (Permutation_NoDup (Permutation_sym Q) N)|]. intros x. rewrite <- I. split; apply Permutation_in; [exact Q|now apply Permutation_sym].
  Qed.
  Lemma lists_given {X} {EX : EqDec X} (l : list X) (o : option (list X)) P : (forall x, In x l <-> P x) ->
    lists (match o with Some l' => filter (fun x => mem x l') (sof l) | None => sof l end) (fun x => P x /\ given_in x o).
  Proof.
    intros H. destruct o as [l'|]; cbn [given_in]; split.
    - apply NoDup_filter, NoDup_sof.
    - intros x. rewrite filter_In, In_sof, mem_spec, H. reflexivity.
    - apply NoDup_sof.
    - intros x. rewrite In_sof, H. tauto.
  Qed.
  Lemma drawn_vs_lists : lists drawn_vs (shows_vertex w k).
  Proof.
    apply (lists_perm _ _ _ (Hv _)). assert (Q : forall u, In u (view_vertices w) <-> In u (api_vertices (vg w)) /\ vrel w u = true) by (intros u; apply filter_In).
    destruct (lists_given _ (kw_vs k) _ Q) as [N I]. split; [exact N|]. intros u. rewrite I. unfold shows_vertex. tauto.
  Qed.
  Lemma drawn_es_lists : lists drawn_es (shows_edge w k).
  Proof.
    apply (lists_perm _ _ _ (He _)).
    assert (Q : forall e, In e (view_edges w) <-> In e (api_edges (vg w)) /\ erel w e = true /\ vrel w (source e) = true /\ vrel w (target e) = true).
    { intros e. unfold view_edges, view_keeps. rewrite filter_In, !andb_true_iff. destruct (Hd e) as [-> ->]. tauto. }
    destruct (lists_given _ (kw_es k) _ Q) as [N I]. split; [exact N|]. intros e. rewrite I. unfold shows_edge. tauto.
  Qed.
End Lists.

(** C100: the text of a view describes exactly the selected vertices and edges (among those given by the caller), once each, whatever the order of the sets; the conditions
    of C98 are required only for them. *)
Theorem C100_view {D} {ED : EqDec D} tags directed (w : @view (edge D)) ovs oes k st ex : Permutation tags GRAPHVIZ_SUPPORTED_HTML_TAGS ->
  (forall l, Permutation (ovs l) l) -> (forall l, Permutation (oes l) l) -> direct w ->
  (forall vs es, (forall u, In u vs -> shows_vertex w k u) -> (forall e, In e es -> shows_edge w k e) -> args_dot directed vs es (kw_args k) st ex) ->
  exists t vs es nodes edges,
    view_to_dot (fun k => Ok (Graph_to_dot tags directed (api_vertices (vg w)) (api_edges (vg w)) k)) w ovs oes k = Ok t /\
    lists vs (shows_vertex w k) /\ lists es (shows_edge w k) /\
    Forall2 (describes_vertex (kw_args k)) vs nodes /\ Forall2 (describes_edge (kw_args k)) es edges /\
    dot_read t = Some (Dot directed (Some (Name (lit "G")))
      (st ++ default_statements KGraph (given (kw_dg k)) ++ default_statements KNode (given (kw_dv k)) ++ default_statements KEdge (given (kw_de k)) ++ ex ++ nodes ++ edges)).
Proof.
  intros T Hv He Hd C. pose proof (drawn_vs_lists w ovs k Hv) as LV. pose proof (drawn_es_lists w oes k He Hd) as LE.
  destruct (C98_dot_partial tags directed (drawn_vs w ovs k) (drawn_es w oes k) (kw_args k) st ex T) as (nodes & edges & FV & FE & R).
  { apply C; [intros u; apply LV|intros e; apply LE]. }
  eexists _, _, _, nodes, edges. split; [reflexivity|]. split; [exact LV|]. split; [exact LE|]. split; [exact FV|]. split; [exact FE|].
  etransitivity; [|etransitivity; [exact R|]]; reflexivity.
Qed.
(** If the caller gives no vertices, each described edge links two described vertices. *)
Theorem C100_ends {D} (w : @view (edge D)) k e : (forall e, In e (api_edges (vg w)) -> In (source e) (api_vertices (vg w)) /\ In (target e) (api_vertices (vg w))) ->
  kw_vs k = None -> shows_edge w k e -> shows_vertex w k (source e) /\ shows_vertex w k (target e).
Proof.
  intros V N (I & _ & S & T & _). destruct (V e I) as [VS VT]. unfold shows_vertex. rewrite N. repeat split; assumption.
Qed.
(** The view of an automaton: the selected states and transitions, drawn as by Automaton.to_dot. *)
Theorem C100_automaton {A} {EA : EqDec A} tags text (g : aut A) pv pe ovs oes : Permutation tags GRAPHVIZ_SUPPORTED_HTML_TAGS ->
  (forall l, Permutation (ovs l) l) -> (forall l, Permutation (oes l) l) -> (forall e, In e (A_edges g) -> dot_label (text (distinguisher e))) ->
  let w := view_init (Api (A_vertices g) (A_edges g) (A_out_edges g) (fun _ => []) source target) pv pe in
  exists t vs es, view_to_dot (A_to_dot tags text g) w ovs oes plain = Ok t /\ lists vs (shows_vertex w plain) /\ lists es (shows_edge w plain) /\
    draws t vs es (au_final g) (fun _ => None) (fun e => Some (text (distinguisher e))).
Proof.
  intros T Hv He L w. assert (Hd : direct w) by (intros e; split; reflexivity).
  pose proof (drawn_vs_lists w ovs plain Hv) as LV. pose proof (drawn_es_lists w oes plain He Hd) as LE.
  eexists _, (drawn_vs w ovs plain), (drawn_es w oes plain). split; [reflexivity|]. split; [exact LV|]. split; [exact LE|].
  apply (drawn tags T (drawn_vs w ovs plain) (drawn_es w oes plain) (au_final g) None (fun e => Some (text (distinguisher e)))); [discriminate|].
  intros e v I Q. injection Q as <-. apply L. apply LE in I. apply I.
Qed.

(** If the caller gives vertices, an edge to a vertex outside them may remain: the text mentions a vertex that is not asked for. *)
Definition c100_api : api gedge := Api [0; 1; 2] [Edge 0 1 0; Edge 1 2 0] (fun _ => []) (fun _ => []) source target.
Definition c100_view : @view gedge := view_init c100_api (Some (fun u => negb (u =? 2))) None.
Definition c100_kwargs (vs : option (list nat)) : kwargs_of nat := mkKwargs vs None Absent Absent Absent Absent Absent Absent (Some []).
Theorem C100_given_vertices_refuted : exists (w : @view gedge) vs t d, let k := c100_kwargs (Some vs) in
  view_to_dot (fun k => Ok (Graph_to_dot GRAPHVIZ_SUPPORTED_HTML_TAGS true (api_vertices (vg w)) (api_edges (vg w)) k)) w (fun l => l) (fun l => l) k = Ok t /\
  dot_read t = Some d /\ exists i j a, In (SEdge i j a) (dot_statements d) /\ numbered j = Some 1 /\ ~ In 1 vs.
Proof.
  exists c100_view, [0]. eexists _, _. split; [vm_compute; reflexivity|]. split; [vm_compute; reflexivity|]. eexists _, _, _. split; [right; left; reflexivity|].
  split; [reflexivity|]. intros [Q|[]]; discriminate Q.
Qed.

Example c100_case : exists t vs es nodes edges, let k := c100_kwargs None in
  view_to_dot (fun k => Ok (Graph_to_dot GRAPHVIZ_SUPPORTED_HTML_TAGS true (api_vertices (vg c100_view)) (api_edges (vg c100_view)) k)) c100_view (@rev nat) (@rev gedge) k = Ok t /\
  lists vs (shows_vertex c100_view k) /\ lists es (shows_edge c100_view k) /\
  Forall2 (describes_vertex (kw_args k)) vs nodes /\ Forall2 (describes_edge (kw_args k)) es edges /\
  dot_read t = Some (Dot true (Some (Name (lit "G"))) (nodes ++ edges)).
Proof.
  apply (C100_view GRAPHVIZ_SUPPORTED_HTML_TAGS true c100_view (@rev nat) (@rev gedge) (c100_kwargs None) [] [] (Permutation_refl _)).
  - intros l. apply Permutation_sym, Permutation_rev.
  - intros l. apply Permutation_sym, Permutation_rev.
  - intros e. split; reflexivity.
  - intros vs es _ _. unfold args_dot. split; [now left|]. split; [now left|]. split; [intros k v []|]. split; [intros k v []|]. split; [intros k v []|].
    split; intros k p x v [].
Qed.
Example c100_run : dot_read (match view_to_dot (fun k => Ok (Graph_to_dot GRAPHVIZ_SUPPORTED_HTML_TAGS true (api_vertices (vg c100_view)) (api_edges (vg c100_view)) k))
    c100_view (@rev nat) (@rev gedge) (c100_kwargs None) with Ok t => t | Raise _ => [] end) =
  Some (Dot true (Some (Name (lit "G"))) [SNode (Name (lit "1")) []; SNode (Name (lit "0")) []; SEdge (Name (lit "0")) (Name (lit "1")) []]).
Proof. vm_compute. reflexivity. Qed.

Print Assumptions C100_view.
Print Assumptions C100_ends.
Print Assumptions C100_automaton.
Print Assumptions C100_given_vertices_refuted.
