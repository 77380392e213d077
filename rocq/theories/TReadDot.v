(** Theorems C81: what read_graphviz makes of any text. *)
From Coq Require Import String.
From Verif Require Import Str Regexp Graph GraphSpec GraphProofs GraphProofs2 GraphProofs3 Graphviz GraphvizSpec GraphvizProofs GraphvizProofs2 GraphvizProofs3 ReadDotSpec ReadDotProofs.
From Verif Require Import Base BaseProofs.
Open Scope string_scope.
Open Scope nat_scope.
Open Scope list_scope.

(** Every text has exactly one decomposition in lines, and every line exactly one meaning. *)
Theorem C81_unambiguous : (forall s, exists ls, lines_of s ls /\ forall ls', lines_of s ls' -> ls' = ls) /\ (forall l, exists it, means l it /\ forall it', means l it' -> it' = it) /\
  forall its u i j, denotes its u i -> denotes its u j -> i = j.
Proof.
  split; [|split].
  - intros s. exists (splitlines s). split; [apply splitlines_spec; reflexivity|]. intros ls H. symmetry. apply splitlines_spec, H.
  - intros l. exists (item_of l). split; [apply item_of_spec; reflexivity|]. intros it H. symmetry. apply item_of_spec, H.
  - intros its u i j (p & q & E1 & N1 & ->) (p' & q' & E2 & N2 & ->). rewrite E1 in E2. apply app_eq_app in E2. destruct E2 as (l & [[E3 E4]|[E3 E4]]).
    + destruct l as [|x l]; [rewrite app_nil_r in E3; subst; reflexivity|]. injection E4 as <- ->. destruct N2. apply in_or_app. right. left. reflexivity.
    + destruct l as [|x l]; [rewrite app_nil_r in E3; subst; reflexivity|]. injection E4 as <- ->. destruct N1. apply in_or_app. right. left. reflexivity.
Qed.
Print Assumptions C81_unambiguous.

Lemma forall2_items ls items : Forall2 means ls items -> map item_of ls = items.
Proof. induction 1 as [|l it ls items H _ IH]; [reflexivity|]. cbn. f_equal; [apply item_of_spec, H|exact IH]. Qed.
Lemma builds_nil_denotes u i : dget (@nil (str * nat)) u = Some i <-> denotes [] u i.
Proof. split; [discriminate|]. intros (p & q & E & _). destruct p; discriminate. Qed.

Definition drep_ends (g : graph) (k : nat) (A : list (nat * nat)) : Prop := last_vertex_id g = k /\ exists E, drep g (seq 0 k) E /\ map ends E = A.
Definition urep_ends (g : graph) (k : nat) (A : list (nat * nat)) : Prop := last_vertex_id g = k /\ exists E, urep g (seq 0 k) E /\ map ends E = A.

(** read_graphviz on a new DirectedGraph and any text. Either every edge line uses names declared above it: then there is one vertex per vertex line, numbered from 0, and one edge per edge line, between the vertices
    last declared under these names. Or the reading stops with KeyError at the first edge line that uses another name, the graph being that of the lines above. *)
Theorem C81_read_directed dot lines items : lines_of dot lines -> Forall2 means lines items ->
  (exists A g', builds items A /\ read_graphviz G_add_edge dot (G_init 0) = (g', Ok tt) /\ G_vertices g' = seq 0 (num_vertex_lines items) /\ Permutation (map ends (G_edges g')) A) \/
  (exists before u v after A g', items = before ++ IEdge u v :: after /\ builds before A /\ ((forall i, ~ denotes before u i) \/ forall j, ~ denotes before v j) /\
    read_graphviz G_add_edge dot (G_init 0) = (g', Raise KeyError) /\ G_vertices g' = seq 0 (num_vertex_lines before) /\ Permutation (map ends (G_edges g')) A).
Proof.
  intros HL HI. apply splitlines_spec in HL. apply forall2_items in HI.
  destruct (read_lines G_add_edge (fun x => x) drep_ends) with (ls := lines) (its := @nil item) (A := @nil (nat * nat)) (g := G_init 0) (al := @nil (str * nat)) as [(A & g' & al & B & E & L & Es & R & M)|(before & u & v & after & A & g' & al & EI & B & N & E & L & Es & R & M)].
  - intros g k A (L & E & R & M). eexists. unfold G_add_vertex. rewrite L. split; [reflexivity|]. split; [reflexivity|]. exists E. split; [|exact M]. rewrite seq_S. pose proof (drep_add_vertex g _ _ R) as X. rewrite L in X. unfold G_add_vertex in X. rewrite L in X. apply X. rewrite in_seq. lia.
  - intros g k A u v (L & E & R & M) Hu Hv. destruct (drep_add_edge g (seq 0 k) E u v R) as (g' & E' & L' & R'); [apply in_seq; lia|]. eexists g', _. split; [exact E'|]. split; [congruence|]. eexists. split; [exact R'|]. rewrite map_app, M. reflexivity.
  - constructor.
  - split; [reflexivity|]. exists []. split; [apply drep_empty_graph|reflexivity].
  - apply builds_nil_denotes.
  - left. cbn [app] in B, R. rewrite HI in B, R. exists A, g'. split; [exact B|]. unfold read_graphviz. rewrite HL, E. split; [reflexivity|]. cbn [fst]. split.
    + apply (dr_keys _ _ _ R).
    + rewrite map_id in M. rewrite <- M. apply Permutation_map, (drep_edges _ _ _ R).
  - right. cbn [app] in EI. rewrite HI in EI. exists before, u, v, after, A, g'. split; [exact EI|]. split; [exact B|]. split; [exact N|]. unfold read_graphviz. rewrite HL, E. split; [reflexivity|]. cbn [fst]. split.
    + apply (dr_keys _ _ _ R).
    + rewrite map_id in M. rewrite <- M. apply Permutation_map, (drep_edges _ _ _ R).
Qed.
Print Assumptions C81_read_directed.

(** The same for a new UndirectedGraph, whose edges have their smaller end first. *)
Theorem C81_read_undirected dot lines items : lines_of dot lines -> Forall2 means lines items ->
  let low_first := fun e : nat * nat => (Nat.min (fst e) (snd e), Nat.max (fst e) (snd e)) in
  (exists A g', builds items A /\ read_graphviz UG_add_edge dot (G_init 0) = (g', Ok tt) /\ G_vertices g' = seq 0 (num_vertex_lines items) /\ Permutation (map ends (UG_edges g')) (map low_first A)) \/
  (exists before u v after A g', items = before ++ IEdge u v :: after /\ builds before A /\ ((forall i, ~ denotes before u i) \/ forall j, ~ denotes before v j) /\
    read_graphviz UG_add_edge dot (G_init 0) = (g', Raise KeyError) /\ G_vertices g' = seq 0 (num_vertex_lines before) /\ Permutation (map ends (UG_edges g')) (map low_first A)).
Proof.
  intros HL HI low_first. apply splitlines_spec in HL. apply forall2_items in HI.
  destruct (read_lines UG_add_edge low_first urep_ends) with (ls := lines) (its := @nil item) (A := @nil (nat * nat)) (g := G_init 0) (al := @nil (str * nat)) as [(A & g' & al & B & E & L & Es & R & M)|(before & u & v & after & A & g' & al & EI & B & N & E & L & Es & R & M)].
  - intros g k A (L & E & R & M). eexists. unfold G_add_vertex. rewrite L. split; [reflexivity|]. split; [reflexivity|]. exists E. split; [|exact M]. rewrite seq_S. pose proof (urep_add_vertex g _ _ R) as X. rewrite L in X. unfold G_add_vertex in X. rewrite L in X. apply X. rewrite in_seq. lia.
  - intros g k A u v (L & E & R & M) Hu Hv. destruct (urep_add_edge g (seq 0 k) E u v R) as (g' & E' & L' & R'); [apply in_seq; lia|apply in_seq; lia|]. eexists g', _. split; [exact E'|]. split; [congruence|]. eexists. split; [exact R'|]. rewrite map_app, M. reflexivity.
  - constructor.
  - split; [reflexivity|]. exists []. split; [|reflexivity]. apply (proj1 (proj1 (undirected_run 0 [] I))).
  - apply builds_nil_denotes.
  - left. cbn [app] in B, R. rewrite HI in B, R. exists A, g'. split; [exact B|]. unfold read_graphviz. rewrite HL, E. split; [reflexivity|]. cbn [fst]. split.
    + apply (ur_keys _ _ _ R).
    + rewrite <- M. apply Permutation_map, (urep_edges _ _ _ R).
  - right. cbn [app] in EI. rewrite HI in EI. exists before, u, v, after, A, g'. split; [exact EI|]. split; [exact B|]. split; [exact N|]. unfold read_graphviz. rewrite HL, E. split; [reflexivity|]. cbn [fst]. split.
    + apply (ur_keys _ _ _ R).
    + rewrite <- M. apply Permutation_map, (urep_edges _ _ _ R).
Qed.
Print Assumptions C81_read_undirected.

(** Two texts: a name declared twice, options, spaces and other lines; and a name used before its declaration. *)
Definition ex_text : str := lit "digraph G {" ++ [13; 10]%N ++ lit "  7;" ++ [10]%N ++ lit "8 [label=""x;y""] ;" ++ [10]%N ++ lit "7->8;" ++ [10]%N ++ lit "7;" ++ [10]%N ++ lit " 8 -> 7[color=red] ; }".
Example C81_example_lines : lines_of ex_text [lit "digraph G {"; lit "  7;"; lit "8 [label=""x;y""] ;"; lit "7->8;"; lit "7;"; lit " 8 -> 7[color=red] ; }"].
Proof. apply splitlines_spec. vm_compute. reflexivity. Qed.
Example C81_example_items : Forall2 means [lit "digraph G {"; lit "  7;"; lit "8 [label=""x;y""] ;"; lit "7->8;"; lit "7;"; lit " 8 -> 7[color=red] ; }"]
  [INone; IVertex (lit "7"); IVertex (lit "8"); IEdge (lit "7") (lit "8"); IVertex (lit "7"); IEdge (lit "8") (lit "7")].
Proof. repeat (apply Forall2_cons; [apply item_of_spec; vm_compute; reflexivity|]). constructor. Qed.
Example C81_example_builds : builds [INone; IVertex (lit "7"); IVertex (lit "8"); IEdge (lit "7") (lit "8"); IVertex (lit "7"); IEdge (lit "8") (lit "7")] [(0, 1); (1, 2)].
Proof.
  apply (builds_edge [INone; IVertex (lit "7"); IVertex (lit "8"); IEdge (lit "7") (lit "8"); IVertex (lit "7")] [(0, 1)]).
  - apply (builds_vertex [INone; IVertex (lit "7"); IVertex (lit "8"); IEdge (lit "7") (lit "8")]).
    apply (builds_edge [INone; IVertex (lit "7"); IVertex (lit "8")] []).
    + apply (builds_vertex [INone; IVertex (lit "7")]), (builds_vertex [INone]), (builds_none []), builds_nil.
    + exists [INone], [IVertex (lit "8")]. split; [reflexivity|]. split; [intros [E|[]]; discriminate|reflexivity].
    + exists [INone; IVertex (lit "7")], []. split; [reflexivity|]. split; [intros []|reflexivity].
  - exists [INone; IVertex (lit "7")], [IEdge (lit "7") (lit "8"); IVertex (lit "7")]. split; [reflexivity|]. split; [intros [E|[E|[]]]; discriminate|reflexivity].
  - exists [INone; IVertex (lit "7"); IVertex (lit "8"); IEdge (lit "7") (lit "8")], []. split; [reflexivity|]. split; [intros []|reflexivity].
Qed.
Example C81_example : match read_graphviz G_add_edge ex_text (G_init 0) with (g', Ok _) => G_vertices g' = [0; 1; 2] /\ map ends (G_edges g') = [(0, 1); (1, 2)] | _ => False end.
Proof. vm_compute. auto. Qed.
Example C81_example_error : snd (read_graphviz G_add_edge (lit "7;" ++ [10]%N ++ lit "7->8;" ++ [10]%N ++ lit "8;") (G_init 0)) = Raise KeyError.
Proof. vm_compute. reflexivity. Qed.
