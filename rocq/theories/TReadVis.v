(** Theorems C128: what read_graphviz tells its visitor, and read_graphviz_dp. *)
From Coq Require Import String.
From Verif Require Import Str Regexp Graph GraphSpec GraphProofs GraphProofs2 GraphProofs3 Graphviz GraphvizSpec GraphvizProofs GraphvizProofs2 GraphvizProofs3 ReadDotSpec ReadDotProofs TReadDot ReadVis ReadVisSpec ReadVisProofs.
From Verif Require Import Base BaseProofs.
Open Scope string_scope.
Open Scope nat_scope.
Open Scope list_scope.

(** Every line has exactly one meaning, options included; it is the meaning of C81 if the options are left out. *)
Theorem C128_unambiguous l : exists it, omeans l it /\ means l (item_only it) /\ forall it', omeans l it' -> it' = it.
Proof. exists (oitem_of l). split; [apply omeans_oitem|]. split; [apply omeans_means, omeans_oitem|]. intros it' M. apply (omeans_unique l); [exact M|apply omeans_oitem]. Qed.
Print Assumptions C128_unambiguous.

(** The attributes of the options [body]: those found by the HTML parser in <fake_tag body>, in the order of their first mentions, each with its last value. No option, no attribute. *)
Theorem C128_attributes starttags : parser_items starttags None = [] /\ parser_items starttags (Some []) = [] /\
  forall body, let given := concat (starttags (lit "<fake_tag " ++ body ++ lit ">")) in let items := parser_items starttags (Some (lit "[" ++ body ++ lit "]")) in
    map fst items = rev (nodup eq_dec (rev (map fst given))) /\ NoDup (map fst items) /\ forall k v, In (k, v) items <-> last_value k given = Some v.
Proof.
  split; [reflexivity|]. split; [reflexivity|]. intros body. cbv zeta.
  assert (E : parser_items starttags (Some (lit "[" ++ body ++ lit "]")) = handle_starttag [] (concat (starttags (lit "<fake_tag " ++ body ++ lit ">")))).
  { rewrite <- handle_all. unfold parser_items. change (lit "[" ++ body ++ lit "]") with (ch "[" :: body ++ [ch "]"]). cbv iota beta. unfold inside. cbn [tl]. rewrite removelast_last. reflexivity. }
  rewrite E. set (given := concat _). assert (N : NoDup (dkeys (handle_starttag [] given))) by (apply handle_nodup; constructor).
  split; [apply (handle_keys given []); constructor|]. split; [exact N|]. intros k v. pose proof (handle_dget given [] k) as D. cbn [dget] in D.
  split.
  - intros I. rewrite (In_dget _ _ _ N I) in D. destruct (last_value k given); congruence.
  - intros L. rewrite L in D. apply dget_In in D. exact D.
Qed.
Print Assumptions C128_attributes.

(** read_graphviz with a visitor that handles every property without raising: [vh] and [eh] are what on_install_vertex_property and on_install_edge_property do to its state. On a new DirectedGraph and any text, either
    every edge line uses names declared above it: the graph is that of C81, and the visitor gets, line after line, the attributes of the options of the line, with the vertex or the edge made for this line. Or the reading
    stops with KeyError at the first edge line that uses another name, and the visitor got the attributes of the lines above. *)
Theorem C128_calls_directed starttags H vh eh dot lines its h : lines_of dot lines -> Forall2 omeans lines its ->
  let does := fun h c => match c with VCall u k v => vh h u k v | ECall e k v => eh h e k v end in
  let read := read_graphviz_vis G_add_edge starttags H (fun h u k v => (vh h u k v, Ok tt)) (fun h e k v => (eh h e k v, Ok tt)) dot (G_init 0) h in
  let attributes := fun o => parser_items starttags (Some o) in
  (exists A es g', builds (map item_only its) A /\ read = (g', fold_left does (calls attributes 0 its es) h, Ok tt) /\
    G_vertices g' = seq 0 (num_vertex_lines (map item_only its)) /\ map ends es = A /\ NoDup es /\ Permutation (G_edges g') es) \/
  (exists before u v o after A es g', its = before ++ OEdge u v o :: after /\ builds (map item_only before) A /\
    ((forall i, ~ denotes (map item_only before) u i) \/ forall j, ~ denotes (map item_only before) v j) /\ read = (g', fold_left does (calls attributes 0 before es) h, Raise KeyError) /\
    G_vertices g' = seq 0 (num_vertex_lines (map item_only before)) /\ map ends es = A /\ NoDup es /\ Permutation (G_edges g') es).
Proof.
  intros HL HI does read attributes. apply splitlines_spec in HL. apply forall2_oitems in HI.
  destruct (vis_lines G_add_edge starttags H vh eh (fun x => x) (fun g k E => last_vertex_id g = k /\ drep g (seq 0 k) E)) with (ls := lines) (its := @nil oitem) (A := @nil (nat * nat)) (E := @nil gedge) (g := G_init 0) (al := @nil (str * nat)) (h := h)
    as [(A & es & g' & al & B & E & (L & R) & M)|(before & u & v & o & after & A & es & g' & al & EI & B & N & E & (L & R) & M)].
  - intros g k E (L & R). eexists. unfold G_add_vertex. rewrite L. split; [reflexivity|]. split; [reflexivity|]. rewrite seq_S. pose proof (drep_add_vertex g _ _ R) as X. rewrite L in X. unfold G_add_vertex in X. rewrite L in X. apply X. rewrite in_seq. lia.
  - intros g k E u v (L & R) Hu Hv. destruct (drep_add_edge g (seq 0 k) E u v R) as (g' & E' & L' & R'); [apply in_seq; lia|]. eexists g', _. split; [exact E'|]. split; [reflexivity|]. split; [congruence|exact R'].
  - constructor.
  - split; [reflexivity|]. apply drep_empty_graph.
  - reflexivity.
  - apply builds_nil_denotes.
  - left. cbn [app] in *. rewrite HI in B, R, E. exists A, es, g'. split; [exact B|]. split; [unfold read, read_graphviz_vis; rewrite HL, E; reflexivity|]. split; [apply (dr_keys _ _ _ R)|]. split; [rewrite map_id in M; exact M|]. split; [apply (dr_nd _ _ _ R)|apply (drep_edges _ _ _ R)].
  - right. cbn [app] in *. rewrite HI in EI. exists before, u, v, o, after, A, es, g'. split; [exact EI|]. split; [exact B|]. split; [exact N|]. split; [unfold read, read_graphviz_vis; rewrite HL, E; reflexivity|]. split; [apply (dr_keys _ _ _ R)|]. split; [rewrite map_id in M; exact M|]. split; [apply (dr_nd _ _ _ R)|apply (drep_edges _ _ _ R)].
Qed.
Print Assumptions C128_calls_directed.

(** The same for a new UndirectedGraph, whose edges have their smaller end first. *)
Theorem C128_calls_undirected starttags H vh eh dot lines its h : lines_of dot lines -> Forall2 omeans lines its ->
  let low_first := fun e : nat * nat => (Nat.min (fst e) (snd e), Nat.max (fst e) (snd e)) in
  let does := fun h c => match c with VCall u k v => vh h u k v | ECall e k v => eh h e k v end in
  let read := read_graphviz_vis UG_add_edge starttags H (fun h u k v => (vh h u k v, Ok tt)) (fun h e k v => (eh h e k v, Ok tt)) dot (G_init 0) h in
  let attributes := fun o => parser_items starttags (Some o) in
  (exists A es g', builds (map item_only its) A /\ read = (g', fold_left does (calls attributes 0 its es) h, Ok tt) /\
    G_vertices g' = seq 0 (num_vertex_lines (map item_only its)) /\ map ends es = map low_first A /\ NoDup es /\ Permutation (UG_edges g') es) \/
  (exists before u v o after A es g', its = before ++ OEdge u v o :: after /\ builds (map item_only before) A /\
    ((forall i, ~ denotes (map item_only before) u i) \/ forall j, ~ denotes (map item_only before) v j) /\ read = (g', fold_left does (calls attributes 0 before es) h, Raise KeyError) /\
    G_vertices g' = seq 0 (num_vertex_lines (map item_only before)) /\ map ends es = map low_first A /\ NoDup es /\ Permutation (UG_edges g') es).
Proof.
  intros HL HI low_first does read attributes. apply splitlines_spec in HL. apply forall2_oitems in HI.
  destruct (vis_lines UG_add_edge starttags H vh eh low_first (fun g k E => last_vertex_id g = k /\ urep g (seq 0 k) E)) with (ls := lines) (its := @nil oitem) (A := @nil (nat * nat)) (E := @nil gedge) (g := G_init 0) (al := @nil (str * nat)) (h := h)
    as [(A & es & g' & al & B & E & (L & R) & M)|(before & u & v & o & after & A & es & g' & al & EI & B & N & E & (L & R) & M)].
  - intros g k E (L & R). eexists. unfold G_add_vertex. rewrite L. split; [reflexivity|]. split; [reflexivity|]. rewrite seq_S. pose proof (urep_add_vertex g _ _ R) as X. rewrite L in X. unfold G_add_vertex in X. rewrite L in X. apply X. rewrite in_seq. lia.
  - intros g k E u v (L & R) Hu Hv. destruct (urep_add_edge g (seq 0 k) E u v R) as (g' & E' & L' & R'); [apply in_seq; lia|apply in_seq; lia|]. eexists g', _. split; [exact E'|]. split; [reflexivity|]. split; [congruence|exact R'].
  - constructor.
  - split; [reflexivity|]. apply (proj1 (proj1 (undirected_run 0 [] I))).
  - reflexivity.
  - apply builds_nil_denotes.
  - left. cbn [app] in *. rewrite HI in B, R, E. exists A, es, g'. split; [exact B|]. split; [unfold read, read_graphviz_vis; rewrite HL, E; reflexivity|]. split; [apply (ur_keys _ _ _ R)|]. split; [exact M|]. split; [apply (ur_nd _ _ _ R)|apply (urep_edges _ _ _ R)].
  - right. cbn [app] in *. rewrite HI in EI. exists before, u, v, o, after, A, es, g'. split; [exact EI|]. split; [exact B|]. split; [exact N|]. split; [unfold read, read_graphviz_vis; rewrite HL, E; reflexivity|]. split; [apply (ur_keys _ _ _ R)|]. split; [exact M|]. split; [apply (ur_nd _ _ _ R)|apply (urep_edges _ _ _ R)].
Qed.
Print Assumptions C128_calls_undirected.

(** Such a visitor changes neither the graph nor the exception raised, whatever add_edge does and whatever the graph held before. *)
Theorem C128_same_graph add_edge starttags H vh eh dot g h :
  let '(g', _, r) := read_graphviz_vis add_edge starttags H (fun h u k v => (vh h u k v, Ok tt)) (fun h e k v => (eh h e k v, Ok tt)) dot g h in (g', r) = read_graphviz add_edge dot g.
Proof.
  unfold read_graphviz_vis, read_graphviz. destruct (vis_plain add_edge starttags H vh eh (splitlines dot) g [] h) as [h' ->]. destruct (foreach (read_line add_edge) (g, []) (splitlines dot)) as [[g' al'] r]. reflexivity.
Qed.
Print Assumptions C128_same_graph.

(** read_graphviz_dp reads nothing: it raises TypeError for every text, graph and maps, and changes none of them. *)
Theorem C128_dp_always add_edge starttags dot g dp : read_graphviz_dp add_edge starttags dot g dp = (g, dp, Raise TypeError).
Proof. reflexivity. Qed.
Print Assumptions C128_dp_always.

(** The entry of [x] in the map of the attribute [k]. *)
Definition entry {K} `{EqDec K} (dp : option (dict str (dict K (option str)))) (k : str) (x : K) : option (option str) :=
  match dp with Some d => match dget d k with Some m => dget m x | None => None end | None => None end.
Lemma dp_install_spec {K} `{EqDec K} (dp : option (dict str (dict K (option str)))) x k v :
  ((dp = None \/ dp = Some [] \/ (exists d, dp = Some d /\ dget d k = Some [])) -> dp_install dp x k v = (dp, Ok tt)) /\
  (forall d, dp = Some d -> d <> [] -> dget d k = None -> dp_install dp x k v = (dp, Raise KeyError)) /\
  (forall d m, dp = Some d -> dget d k = Some m -> m <> [] -> exists dp', dp_install dp x k v = (dp', Ok tt) /\
     forall k' x', entry dp' k' x' = if eq_dec k' k then if eq_dec x' x then Some v else dget m x' else entry dp k' x').
Proof.
  unfold dp_install. split; [|split].
  - intros [->|[->|(d & -> & E)]]; [reflexivity|reflexivity|]. destruct d as [|p d]; [reflexivity|]. rewrite E. reflexivity.
  - intros d -> NE E. destruct d as [|p d]; [contradiction|]. rewrite E. reflexivity.
  - intros d m -> E NE. destruct d as [|p d]; [discriminate|]. rewrite E. destruct m as [|q m]; [contradiction|]. eexists. split; [reflexivity|]. intros k' x'. unfold entry. rewrite dget_dset. unfold eqb at 1. destruct (eq_dec k' k) as [->|]; [|reflexivity]. rewrite dget_dset. unfold eqb. destruct (eq_dec x' x); reflexivity.
Qed.
(** The methods of its visitor store nothing either in the maps that the documentation asks for: None, empty dicts, or dicts of empty dicts. They raise KeyError for an attribute that a non-empty dict does not have. If the
    dict has a non-empty map for the attribute, the value is stored there for the vertex or the edge, and nothing else changes. The method for the vertices does not touch the maps of the edges, and conversely. *)
Theorem C128_dp_hooks dpv dpe u e k v :
  ((dpv = None \/ dpv = Some [] \/ (exists d, dpv = Some d /\ dget d k = Some [])) -> dp_vertex (dpv, dpe) u k v = ((dpv, dpe), Ok tt)) /\
  (forall d, dpv = Some d -> d <> [] -> dget d k = None -> dp_vertex (dpv, dpe) u k v = ((dpv, dpe), Raise KeyError)) /\
  (forall d m, dpv = Some d -> dget d k = Some m -> m <> [] -> exists dpv', dp_vertex (dpv, dpe) u k v = ((dpv', dpe), Ok tt) /\
     forall k' u', entry dpv' k' u' = if eq_dec k' k then if eq_dec u' u then Some v else dget m u' else entry dpv k' u') /\
  ((dpe = None \/ dpe = Some [] \/ (exists d, dpe = Some d /\ dget d k = Some [])) -> dp_edge (dpv, dpe) e k v = ((dpv, dpe), Ok tt)) /\
  (forall d, dpe = Some d -> d <> [] -> dget d k = None -> dp_edge (dpv, dpe) e k v = ((dpv, dpe), Raise KeyError)) /\
  (forall d m, dpe = Some d -> dget d k = Some m -> m <> [] -> exists dpe', dp_edge (dpv, dpe) e k v = ((dpv, dpe'), Ok tt) /\
     forall k' e', entry dpe' k' e' = if eq_dec k' k then if eq_dec e' e then Some v else dget m e' else entry dpe k' e').
Proof.
  destruct (dp_install_spec dpv u k v) as (V1 & V2 & V3), (dp_install_spec dpe e k v) as (E1 & E2 & E3). unfold dp_vertex, dp_edge. cbn [fst snd]. split; [|split; [|split; [|split; [|split]]]].
  - intros X. rewrite (V1 X). reflexivity.
  - intros d X1 X2 X3. rewrite (V2 d X1 X2 X3). reflexivity.
  - intros d m X1 X2 X3. destruct (V3 d m X1 X2 X3) as (d' & -> & S). eauto.
  - intros X. rewrite (E1 X). reflexivity.
  - intros d X1 X2 X3. rewrite (E2 d X1 X2 X3). reflexivity.
  - intros d m X1 X2 X3. destruct (E3 d m X1 X2 X3) as (d' & -> & S). eauto.
Qed.
Print Assumptions C128_dp_hooks.
Example C128_example_hooks : dp_vertex (Some [(lit "color", [(7, None)])], Some []) 3 (lit "color") (Some (lit "red")) = ((Some [(lit "color", [(7, None); (3, Some (lit "red"))])], Some []), Ok tt) /\
  dp_edge (Some [(lit "color", [(7, None)])], Some []) (Edge 0 1 0) (lit "color") (Some (lit "red")) = ((Some [(lit "color", [(7, None)])], Some []), Ok tt) /\
  snd (dp_vertex (Some [(lit "color", [(7, None)])], None) 3 (lit "label") None) = Raise KeyError.
Proof. vm_compute. auto. Qed.

(** A text with two vertices, options on both and on an edge; the parser finds color=red, or nothing. *)
Definition ex_dot : str := lit "digraph G {" ++ [10]%N ++ lit " 3 [color=red] ;" ++ [10]%N ++ lit "5;" ++ [10]%N ++ lit "5 -> 3 [color=red];" ++ [10]%N ++ lit "}".
Definition ex_tags (s : str) : list (list (str * option str)) := if eq_dec s (lit "<fake_tag color=red>") then [[(lit "color", Some (lit "blue")); (lit "color", Some (lit "red"))]] else [].
Example C128_example_lines : lines_of ex_dot [lit "digraph G {"; lit " 3 [color=red] ;"; lit "5;"; lit "5 -> 3 [color=red];"; lit "}"].
Proof. apply splitlines_spec. vm_compute. reflexivity. Qed.
Example C128_example_items : Forall2 omeans [lit "digraph G {"; lit " 3 [color=red] ;"; lit "5;"; lit "5 -> 3 [color=red];"; lit "}"] [ONone; OVertex (lit "3") (lit "[color=red]"); OVertex (lit "5") []; OEdge (lit "5") (lit "3") (lit "[color=red]"); ONone].
Proof.
  repeat (apply Forall2_cons; [match goal with |- omeans ?l ?it => let E := fresh in assert (E : oitem_of l = it) by (vm_compute; reflexivity); rewrite <- E; apply omeans_oitem end|]). constructor.
Qed.
Example C128_example : let '(g, h, r) := read_graphviz_vis G_add_edge ex_tags (list call) (fun h u k v => (h ++ [VCall u k v], Ok tt)) (fun h e k v => (h ++ [ECall e k v], Ok tt)) ex_dot (G_init 0) [] in
  h = [VCall 0 (lit "color") (Some (lit "red")); ECall (Edge 1 0 0) (lit "color") (Some (lit "red"))] /\ G_edges g = [Edge 1 0 0] /\ r = Ok tt.
Proof. vm_compute. auto. Qed.
(** options that contain a bracket and a semicolon: the longest match counts *)
Example C128_example_longest : oitem_of (lit "1 [a=""];""] ; [b=2];") = OVertex (lit "1") (lit "[a=""];""] ; [b=2]").
Proof. vm_compute. reflexivity. Qed.

(** read_graphviz_dp should load the attributes of this text, which read_graphviz with a visitor does *)
Theorem C128_dp_refuted : exists dot dp, snd (read_graphviz_vis G_add_edge ex_tags _ dp_vertex dp_edge dot (G_init 0) dp) = Ok tt /\
  fst (read_graphviz_vis G_add_edge ex_tags _ dp_vertex dp_edge dot (G_init 0) dp) <> (fst (fst (read_graphviz_dp G_add_edge ex_tags dot (G_init 0) dp)), dp) /\
  snd (read_graphviz_dp G_add_edge ex_tags dot (G_init 0) dp) = Raise TypeError.
Proof. exists ex_dot, (Some [(lit "color", [(7, None)])], None). split; [vm_compute; reflexivity|]. split; [vm_compute; discriminate|reflexivity]. Qed.
Print Assumptions C128_dp_refuted.
