(** Theorems on the Graphviz strings: C62, C63. *)
From Coq Require Import String.
From Verif Require Import Str Graph GraphSpec GraphProofs GraphProofs2 GraphProofs3 Graphviz GraphvizSpec GraphvizProofs GraphvizProofs2 GraphvizProofs3.
From Verif Require Import Base BaseProofs.
Open Scope string_scope.
Open Scope nat_scope.
Open Scope list_scope.

(** ** C63 *)
(** The output is the concatenation of the recognised tags, copied, and of the translation of the other characters,
    which contains none of <, >, [, ], {, } and no character below 32. The order of the alternatives in the pattern is
    irrelevant. *)
Theorem C63_escape_partial tags s : Permutation tags GRAPHVIZ_SUPPORTED_HTML_TAGS ->
  exists l, escapes s l /\ graphviz_escape_html tags s = concat (map snd l) /\
    forall tag p, In (tag, p) l ->
      if tag then html_tag p else forall c, In c p -> ~ In c (lit "<>[]{}") /\ (32 <= c)%N.
Proof.
  intros P. destruct (escapes_total tags P s) as (l & E). exists l. split; [exact E|]. split; [apply escape_escapes; assumption|].
  intros tag p I. pose proof (escapes_clean s l E) as F. rewrite Forall_forall in F. specialize (F _ I). cbn in F. destruct tag; [exact F|].
  intros c J. rewrite Forall_forall in F. apply (F c J).
Qed.
Print Assumptions C63_escape_partial.

(** [escapes] determines the pieces. *)
Theorem C63_pieces_unique s l l' : escapes s l -> escapes s l' -> l = l'.
Proof. apply escapes_det. Qed.
Print Assumptions C63_pieces_unique.

(** Two characters are never translated to the same string. *)
Theorem C63_injective a b : graphviz_escape_char a = graphviz_escape_char b -> a = b.
Proof. apply escape_char_inj. Qed.
Print Assumptions C63_injective.

(** The control characters from 127 are copied. *)
Theorem C63_control_refuted : exists s c, In c s /\ (127 <= c <= 159)%N /\
  graphviz_escape_html GRAPHVIZ_SUPPORTED_HTML_TAGS s = s.
Proof. exists [127%N; 133%N], 127%N. split; [left; reflexivity|]. split; [split; discriminate|]. vm_compute. reflexivity. Qed.
Print Assumptions C63_control_refuted.

(** The translation of strings is not injective: the backslash is copied. *)
Theorem C63_string_injective_refuted : exists s s', s <> s' /\
  graphviz_escape_html GRAPHVIZ_SUPPORTED_HTML_TAGS s = graphviz_escape_html GRAPHVIZ_SUPPORTED_HTML_TAGS s'.
Proof. exists [10%N], (lit "\n"). split; [discriminate|]. vm_compute. reflexivity. Qed.
Print Assumptions C63_string_injective_refuted.

Example C63_example : graphviz_escape_html GRAPHVIZ_SUPPORTED_HTML_TAGS
    (lit "a<1 & < FONT color='[x]' >[" ++ [0; 10; 31]%N ++ lit "]< /font ></ b><br/>{}<x>") =
  lit "a&#60;1 &#38; < FONT color='[x]' >&#91;\x00;\n\x1f;&#93;< /font >&#60;/ b&#62;<br/>&#123;&#125;&#60;x&#62;".
Proof. vm_compute. reflexivity. Qed.
Example C63_tags : html_tag (lit "< /FonT >") /\ html_tag (lit "<td align='left'>").
Proof.
  assert (X : forall s n, match_html GRAPHVIZ_SUPPORTED_HTML_TAGS s = Some n -> List.length s = n -> html_tag s).
  { intros s n M L. apply match_html_some in M; [|reflexivity]. destruct M as (t & r & -> & T & ->). rewrite app_length in L.
    destruct r; [rewrite app_nil_r; exact T|cbn in L; lia]. }
  split; eapply X; vm_compute; reflexivity.
Qed.

(** ** C62 *)
(** Directed graphs whose edges all lead to vertices: any optional argument of to_dot is allowed, provided that the
    styles and the attributes stay on one line and that a style does not start with a digit. *)
Theorem C62_directed_partial tags n ops o : let g := fst (run DG_call (G_init n) ops) in
  Permutation tags GRAPHVIZ_SUPPORTED_HTML_TAGS ->
  (forall e, In e (G_edges g) -> In (target e) (G_vertices g)) ->
  args_ok (G_vertices g) (G_edges g) o ->
  exists g', read_graphviz G_add_edge (DG_to_dot tags g o) (G_init 0) = (g', Ok tt) /\
    exists f, renamed f (G_vertices g) (G_edges g) (G_vertices g') (G_edges g').
Proof.
  intros g P C A. apply directed_trip; try assumption. destruct (directed_run n ops) as ((R & _) & _). apply R.
Qed.
Print Assumptions C62_directed_partial.

Definition no_args : dot_args := DotArgs [] [] [] [] [] [] None.
Lemma no_args_ok V E : args_ok V E no_args.
Proof.
  split; [exact I|]. split; [split; [intros ? []|intros ws c r X; destruct ws; discriminate]|].
  split; [intros ? ? []|]. split; [intros ? ? []|]. split; [intros ? ? []|]. split; intros ? ? [].
Qed.

(** Read from an undirected graph, the vertices are there, but no edge. *)
Theorem C62_undirected tags n ops o : closed_prog u_step (a_init n) ops ->
  let g := fst (run UG_call (G_init n) ops) in
  Permutation tags GRAPHVIZ_SUPPORTED_HTML_TAGS ->
  args_ok (G_vertices g) (UG_edges g) o ->
  exists g', read_graphviz UG_add_edge (UG_to_dot tags g o) (G_init 0) = (g', Ok tt) /\
    G_vertices g' = seq 0 (G_num_vertices g) /\ UG_edges g' = [].
Proof.
  intros C g P A. apply undirected_trip; try assumption. destruct (undirected_run n ops C) as ((R & _) & _). apply R.
Qed.
Print Assumptions C62_undirected.

Theorem C62_undirected_refuted : exists g g',
  g = fst (run UG_call (G_init 2) [OpAddEdge 0 1]) /\ UG_edges g = [Edge 0 1 0] /\
  read_graphviz UG_add_edge (UG_to_dot GRAPHVIZ_SUPPORTED_HTML_TAGS g no_args) (G_init 0) = (g', Ok tt) /\ UG_edges g' = [].
Proof. eexists. eexists. split; [reflexivity|]. split; [vm_compute; reflexivity|]. split; vm_compute; reflexivity. Qed.
Print Assumptions C62_undirected_refuted.

(** A directed graph with an edge to a removed or unknown vertex is not read back. *)
Theorem C62_dangling_refuted : exists g g',
  g = fst (run DG_call (G_init 1) [OpAddEdge 0 5]) /\ G_edges g = [Edge 0 5 0] /\
  read_graphviz G_add_edge (DG_to_dot GRAPHVIZ_SUPPORTED_HTML_TAGS g no_args) (G_init 0) = (g', Raise KeyError).
Proof. eexists. eexists. split; [reflexivity|]. split; [vm_compute; reflexivity|]. vm_compute. reflexivity. Qed.
Print Assumptions C62_dangling_refuted.

(** An attribute on two lines is not read back: the vertex 0 is lost. *)
Theorem C62_two_lines_refuted : exists o g g',
  g = fst (run DG_call (G_init 1) []) /\ G_vertices g = [0] /\
  read_graphviz G_add_edge (DG_to_dot GRAPHVIZ_SUPPORTED_HTML_TAGS g o) (G_init 0) = (g', Ok tt) /\ G_vertices g' = [].
Proof.
  exists (DotArgs [] [] [] [] [(lit "color", fun _ => Some (10%N :: lit "red"))] [] None). eexists. eexists.
  split; [reflexivity|]. split; [vm_compute; reflexivity|]. split; vm_compute; reflexivity.
Qed.
Print Assumptions C62_two_lines_refuted.

Definition ex_g : graph := fst (run DG_call (G_init 12) [OpAddEdge 10 2; OpRemoveVertex 0; OpAddEdge 11 11; OpAddEdge 10 2; OpAddEdge 2 11]).
Definition ex_args : dot_args :=
  DotArgs [(lit "rankdir", lit "TB")] (lit "splines=ortho") [] [(lit "color", lit "red")]
    [(lit "label", fun u => if u =? 2 then Some (10%N :: lit "x]") else None); (lit "shape", fun _ => Some (lit "]; 3;"))]
    [(lit "label", fun e => Some (lit "<b>" ++ str_nat (distinguisher e) ++ lit "</b>"))] (Some []).
Example C62_example_edges : map ends (G_edges ex_g) = [(2, 11); (10, 2); (10, 2); (11, 11)] /\
  (forall e, In e (G_edges ex_g) -> In (target e) (G_vertices ex_g)).
Proof.
  split; [vm_compute; reflexivity|]. intros e I. vm_compute in I. repeat (destruct I as [<-|I]; [vm_compute; tauto|]). destruct I.
Qed.
Example C62_example_args : args_ok (G_vertices ex_g) (G_edges ex_g) ex_args.
Proof.
  repeat split.
  - intros c [].
  - intros ws c r E. destruct ws; discriminate.
  - apply one_line_lit. reflexivity.
  - intros [|w ws] c r E W _ J; injection E as E1 E2; [subst c; cbn in J; intuition discriminate|]. subst w. apply Forall_cons_iff in W. destruct W as (W & _). discriminate W.
  - destruct H as [E|[]]. injection E as <- <-. apply one_line_lit. reflexivity.
  - destruct H as [E|[]]. injection E as <- <-. apply one_line_lit. reflexivity.
  - destruct H.
  - destruct H.
  - destruct H as [E|[]]. injection E as <- <-. apply one_line_lit. reflexivity.
  - destruct H as [E|[]]. injection E as <- <-. apply one_line_lit. reflexivity.
  - destruct H as [E|[E|[]]]; injection E as <- <-; apply one_line_lit; reflexivity.
  - destruct H as [E|[E|[]]]; injection E as <- <-; intros u v _ X.
    + destruct (u =? 2); [|discriminate]. injection X as <-. right. split; [reflexivity|]. split; [cbn; intuition discriminate|].
      intros c J K. vm_compute in J, K. intuition congruence.
    + injection X as <-. left. apply one_line_lit. reflexivity.
  - destruct H as [E|[]]. injection E as <- <-. apply one_line_lit. reflexivity.
  - destruct H as [E|[]]. injection E as <- <-. intros e v _ X. injection X as <-. left. change (one_line (lit "<b>" ++ str_nat (distinguisher e) ++ lit "</b>")). rewrite !one_line_app.
    split; [apply one_line_lit; reflexivity|]. split; [apply one_line_str_nat|apply one_line_lit; reflexivity].
Qed.
Example C62_example_read : exists g', read_graphviz G_add_edge (DG_to_dot GRAPHVIZ_SUPPORTED_HTML_TAGS ex_g ex_args) (G_init 0) = (g', Ok tt) /\
  G_num_vertices g' = 11 /\ map ends (G_edges g') = [(1, 10); (9, 1); (9, 1); (10, 10)].
Proof. eexists. split; [vm_compute; reflexivity|]. split; vm_compute; reflexivity. Qed.
