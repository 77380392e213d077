(** Theorems C93, C94 on GraphDp. *)
From Coq Require Import String.
From Verif Require Import Str Graph GraphSpec Graphviz GraphvizSpec GraphvizProofs2 TGraphviz GraphDp JsonSpec JsonProofs.
From Verif Require Import Base BaseProofs.
Open Scope string_scope.
Open Scope nat_scope.
Open Scope list_scope.

(** ** C93 *)

(** what to_json should say of an object: some members, then one string for each attribute *)
Definition with_attributes {X} (dpx : dict str (X -> option str)) (x : X) (kv : list (str * json)) : json :=
  JObj (kv ++ map (fun '(k, p) => (k, JStr (match p x with Some s => s | None => lit "None" end))) dpx).
Definition vertex_json (d : graph_dp) (u : nat) : json := with_attributes (gdp_dpv d) u [(lit "id", JNum (str_nat u))].
Definition edge_json (d : graph_dp) (e : gedge) : json :=
  with_attributes (gdp_dpe d) e [(lit "source", JNum (str_nat (source e))); (lit "target", JNum (str_nat (target e)))].
(** the names of the attributes and their values have no quote, no backslash and no control character *)
Definition plain_attributes {X} (dpx : dict str (X -> option str)) (l : list X) : Prop :=
  forall k p, In (k, p) dpx -> plain k /\ forall x s, In x l -> p x = Some s -> plain s.

Lemma plain_percent {X} (dpx : dict str (X -> option str)) l x : plain_attributes dpx l -> In x l -> forall k p, In (k, p) dpx -> plain k /\ plain (percent_s (p x)).
Proof.
  intros P I k p IK. destruct (P k p IK) as [P1 P2]. split; [exact P1|]. destruct (p x) as [s|] eqn:E; [apply (P2 x s I E)|]. apply plain_lit. reflexivity.
Qed.
Lemma number_member k u : plain k -> reads_member (k, str_nat u) (k, JNum (str_nat u)).
Proof. intros P. split; [exact P|]. split; [reflexivity|]. apply reads_nat. Qed.
Lemma node_reads dpv u : (forall k p, In (k, p) dpv -> plain k /\ plain (percent_s (p u))) -> reads (json_node dpv u) (JObj ([(lit "id", JNum (str_nat u))] ++ attribute_values u dpv)).
Proof.
  intros P. pose proof (reads_record u dpv [(lit "id", str_nat u)] [(lit "id", JNum (str_nat u))]) as R. cbn [map join] in R. unfold member in R. cbn [fst snd] in R.
  rewrite <- !app_assoc in R. apply R; [discriminate| |exact P]. constructor; [|constructor]. apply number_member, plain_lit. reflexivity.
Qed.
Lemma edge_reads dpe e : (forall k p, In (k, p) dpe -> plain k /\ plain (percent_s (p e))) ->
  reads (json_edge dpe e) (JObj ([(lit "source", JNum (str_nat (source e))); (lit "target", JNum (str_nat (target e)))] ++ attribute_values e dpe)).
Proof.
  intros P. pose proof (reads_record e dpe [(lit "source", str_nat (source e)); (lit "target", str_nat (target e))] [(lit "source", JNum (str_nat (source e))); (lit "target", JNum (str_nat (target e)))]) as R.
  cbn [map join] in R. unfold member in R. cbn [fst snd] in R. change (ch "," :: nl ++ indent12) with (lit "," ++ nl ++ indent12) in R.
  rewrite <- !app_assoc in R. apply R; [discriminate| |exact P]. constructor; [|constructor; [|constructor]]; apply number_member, plain_lit; reflexivity.
Qed.
Lemma list_reads l vs : Forall2 reads l vs -> reads (json_list l) (JArr vs).
Proof.
  intros F. assert (X : exists lv, l = map fst lv /\ vs = map snd lv).
  { clear -F. induction F as [|s v l vs R F (lv & -> & ->)]; [exists []; auto|]. exists ((s, v) :: lv). auto. }
  destruct X as (lv & -> & ->). pose proof (reads_array lv (nl ++ lit "        ") (lit " ") (nl ++ lit "    ") F) as R. unfold json_list.
  change (lit ", ") with (ch "," :: lit " "). change (lit "    ]") with (lit "    " ++ lit "]"). rewrite <- !app_assoc in R. apply R; apply blank_lit; reflexivity.
Qed.

(** C93: to_json gives the JSON text of the graph: its type, its vertices and its edges in their order, each with its
    attributes. *)
Theorem C93_to_json directed vertices edges d vs es :
  let vs' := match vs with Some l => l | None => vertices end in let es' := match es with Some l => l | None => edges end in
  plain_attributes (gdp_dpv d) vs' -> plain_attributes (gdp_dpe d) es' ->
  json_read (GraphDp_to_json directed vertices edges d vs es) = Some (JObj
    [(lit "graph_type", JStr (if directed then lit "digraph" else lit "graph"));
     (lit "vertices", JArr (map (vertex_json d) vs')); (lit "edges", JArr (map (edge_json d) es'))]).
Proof.
  intros vs' es' PV PE. apply reads_json. unfold GraphDp_to_json. fold vs' es'.
  pose proof (reads_object [(lit "graph_type", quoted (graphviz_type directed)); (lit "vertices", json_list (map (json_node (gdp_dpv d)) vs')); (lit "edges", json_list (map (json_edge (gdp_dpe d)) es'))]
    [(lit "graph_type", JStr (if directed then lit "digraph" else lit "graph")); (lit "vertices", JArr (map (vertex_json d) vs')); (lit "edges", JArr (map (edge_json d) es'))]
    (nl ++ lit "    ") (nl ++ lit "    ") nl) as R.
  cbn [map join] in R. unfold member in R. cbn [fst snd] in R. change (ch "," :: nl ++ lit "    ") with (lit "," ++ nl ++ lit "    ") in R. rewrite <- !app_assoc in R. apply R; try (apply blank_lit; reflexivity); [discriminate|].
  constructor; [|constructor; [|constructor; [|constructor]]]; (split; [apply plain_lit; reflexivity|split; [reflexivity|]]); cbn [snd].
  - destruct directed; apply reads_string, plain_lit; reflexivity.
  - apply list_reads. assert (X : forall u, In u vs' -> reads (json_node (gdp_dpv d) u) (vertex_json d u)) by (intros u I; apply node_reads; apply (plain_percent _ _ _ PV I)).
    clear -X. induction vs' as [|u l IH]; constructor; [apply X; left; reflexivity|]. apply IH. intros v I. apply X. right. exact I.
  - apply list_reads. assert (X : forall e, In e es' -> reads (json_edge (gdp_dpe d) e) (edge_json d e)) by (intros e I; apply edge_reads; apply (plain_percent _ _ _ PE I)).
    clear -X. induction es' as [|u l IH]; constructor; [apply X; left; reflexivity|]. apply IH. intros v I. apply X. right. exact I.
Qed.

(** Hence the text determines the graph. *)
Theorem C93_faithful directed directed' V V' E E' d d' :
  plain_attributes (gdp_dpv d) V -> plain_attributes (gdp_dpe d) E -> plain_attributes (gdp_dpv d') V' -> plain_attributes (gdp_dpe d') E' ->
  GraphDp_to_json directed V E d None None = GraphDp_to_json directed' V' E' d' None None ->
  directed = directed' /\ V = V' /\ map (fun e => (source e, target e)) E = map (fun e => (source e, target e)) E'.
Proof.
  intros P1 P2 P3 P4 Q. pose proof (C93_to_json directed V E d None None P1 P2) as R. rewrite Q, (C93_to_json directed' V' E' d' None None P3 P4) in R. cbn zeta iota beta in R. clear Q.
  assert (R1 := f_equal (fun x => match x with Some (JObj [(_, a); (_, b); (_, c)]) => Some (a, b, c) | _ => None end) R). cbn beta iota in R1. clear R. injection R1 as RA RB RC.
  split; [destruct directed, directed'; (reflexivity || discriminate RA)|]. split.
  - clear -RB. revert V' RB. induction V as [|u V IH]; intros [|u' V'] RB; try discriminate RB; [reflexivity|]. cbn [map] in RB. injection RB as R1 _ R2. apply str_nat_inj in R1. subst u'. f_equal. apply IH, R2.
  - clear -RC. revert E' RC. induction E as [|u E IH]; intros [|u' E'] RC; try discriminate RC; [reflexivity|]. cbn [map] in RC. injection RC as R1 R2 _ R3. apply str_nat_inj in R1, R2. cbn [map]. rewrite R1, R2. f_equal. apply IH, R3.
Qed.

(** The hypothesis is needed: nothing is escaped. With a quote in an attribute the text is not JSON; *)
Theorem C93_not_json_refuted : exists d, json_read (GraphDp_to_json true [0] [] d None None) = None.
Proof. exists (GraphDp_init (Some [(lit "label", fun _ => Some (lit "say ""x"""))]) None None None None None). vm_compute. reflexivity. Qed.
(** or it is the text of something else, here one more vertex; *)
Theorem C93_other_graph_refuted : exists d d', plain_attributes (gdp_dpv d') [0; 1] /\ plain_attributes (gdp_dpe d') [] /\
  json_read (GraphDp_to_json true [0] [] d None None) = json_read (GraphDp_to_json true [0; 1] [] d' None None).
Proof.
  exists (GraphDp_init (Some [(lit "label", fun _ => Some (lit "x""}, {""id"": 1, ""label"": ""x"))]) None None None None None),
    (GraphDp_init (Some [(lit "label", fun _ => Some (lit "x"))]) None None None None None).
  split; [|split; [intros k p []|vm_compute; reflexivity]]. intros k p [Q|[]]. injection Q as <- <-. split; [apply plain_lit; reflexivity|]. intros x s _ Q. injection Q as <-. apply plain_lit. reflexivity.
Qed.
(** a backslash is read as an escape. *)
Theorem C93_backslash_refuted : exists d, json_read (GraphDp_to_json true [0] [] d None None) <> None /\
  json_read (GraphDp_to_json true [0] [] d None None) <> Some (JObj [(lit "graph_type", JStr (lit "digraph")); (lit "vertices", JArr (map (vertex_json d) [0])); (lit "edges", JArr [])]).
Proof. exists (GraphDp_init (Some [(lit "label", fun _ => Some (lit "left\nright"))]) None None None None None). split; vm_compute; discriminate. Qed.

Definition c93_d : graph_dp := GraphDp_init (Some [(lit "label", fun u => if u =? 10 then None else Some (lit "ok")); (lit "color", fun _ => Some (lit "red"))])
  (Some [(lit "label", fun e => Some (str_nat (target e)))]) None None None None.
Example c93_plain : plain_attributes (gdp_dpv c93_d) [0; 10] /\ plain_attributes (gdp_dpe c93_d) [Edge 0 10 0; Edge 10 10 1].
Proof.
  split; intros k p I; cbn in I.
  - destruct I as [Q|[Q|[]]]; injection Q as <- <-; (split; [apply plain_lit; reflexivity|]); intros x s _ Q.
    + cbv beta in Q. destruct (x =? 10); [discriminate|]. injection Q as <-. apply plain_lit. reflexivity.
    + injection Q as <-. apply plain_lit. reflexivity.
  - destruct I as [Q|[]]. injection Q as <- <-. split; [apply plain_lit; reflexivity|]. intros x s [<-|[<-|[]]] Q; injection Q as <-; apply plain_lit; reflexivity.
Qed.
Example c93_run : json_read (GraphDp_to_json false [0; 10] [Edge 0 10 0; Edge 10 10 1] c93_d None None) = Some (JObj
  [(lit "graph_type", JStr (lit "graph"));
   (lit "vertices", JArr [JObj [(lit "id", JNum (lit "0")); (lit "label", JStr (lit "ok")); (lit "color", JStr (lit "red"))];
                          JObj [(lit "id", JNum (lit "10")); (lit "label", JStr (lit "None")); (lit "color", JStr (lit "red"))]]);
   (lit "edges", JArr [JObj [(lit "source", JNum (lit "0")); (lit "target", JNum (lit "10")); (lit "label", JStr (lit "10"))];
                       JObj [(lit "source", JNum (lit "10")); (lit "target", JNum (lit "10")); (lit "label", JStr (lit "10"))]])]).
Proof. vm_compute. reflexivity. Qed.

Print Assumptions C93_to_json.
Print Assumptions C93_faithful.
Print Assumptions C93_not_json_refuted.
Print Assumptions C93_other_graph_refuted.
Print Assumptions C93_backslash_refuted.

(** ** C94 *)

(** the styles given by the caller, then those of the GraphDp that the caller does not give *)
Definition merged {V} (own given : dict str V) : dict str V := given ++ filter (fun kv => negb (dmem given (fst kv))) own.
Definition given {X} (x : kwarg (list X)) : list X := match x with Given d => d | _ => [] end.

Lemma dset_absent {V} (d : dict str V) k v : dget d k = None -> dset d k v = d ++ [(k, v)].
Proof. induction d as [|[k' v'] d IH]; [reflexivity|]. cbn [dget dset app]. destruct (eqb_spec k k') as [_|_]; [discriminate|]. intros N. rewrite IH by exact N. reflexivity. Qed.
Lemma dget_app {V} (d d' : dict str V) k : dget (d ++ d') k = match dget d k with Some v => Some v | None => dget d' k end.
Proof. induction d as [|[k' v'] d IH]; [reflexivity|]. cbn [app dget]. destruct (eqb_spec k k'); [reflexivity|exact IH]. Qed.
Lemma enrich_merged {V} (own : dict str V) : NoDup (dkeys own) -> forall d, enrich_dict own d = merged own d.
Proof.
  unfold enrich_dict, merged. induction own as [|[k v] own IH]; intros N d; [rewrite app_nil_r; reflexivity|]. cbn [fold_left filter fst]. cbn in N. inversion N as [|? ? N1 N2]; subst.
  destruct (dmem d k) eqn:M; cbn [negb]; rewrite IH by exact N2; [reflexivity|]. assert (G : dget d k = None) by (unfold dmem in M; destruct (dget d k); [discriminate|reflexivity]).
  rewrite dset_absent by exact G. rewrite <- app_assoc. cbn [app]. f_equal. f_equal. apply filter_ext_in. intros [k' v'] I. cbn [fst]. f_equal. unfold dmem. rewrite dget_app. destruct (dget d k'); [reflexivity|]. cbn [dget].
  destruct (eqb_spec k' k) as [->|_]; [|reflexivity]. exfalso. apply N1. apply (in_map fst) in I. exact I.
Qed.
Lemma enrich_kwargs_value {V} (own : dict str V) x : NoDup (dkeys own) -> (x = GivenNone -> own = []) -> exists y, enrich_kwargs own x = Ok y /\ kw_value y = merged own (given x).
Proof.
  intros N G. destruct own as [|a own].
  - exists x. split; [reflexivity|]. unfold merged. cbn [filter]. rewrite app_nil_r. destruct x; reflexivity.
  - destruct x as [| |d]; cbn [enrich_kwargs given].
    + eexists. split; [reflexivity|]. cbn [kw_value]. apply enrich_merged, N.
    + discriminate (G eq_refl).
    + eexists. split; [reflexivity|]. cbn [kw_value]. apply enrich_merged, N.
Qed.

Definition gdp_keys (d : graph_dp) : Prop :=
  NoDup (dkeys (gdp_dpv d)) /\ NoDup (dkeys (gdp_dpe d)) /\ NoDup (dkeys (gdp_dg d)) /\ NoDup (dkeys (gdp_dv d)) /\ NoDup (dkeys (gdp_de d)).
(** None is given for a style that the GraphDp sets *)
Definition none_given (d : graph_dp) (k : kwargs) : Prop :=
  (kw_dpv k = GivenNone /\ gdp_dpv d <> []) \/ (kw_dpe k = GivenNone /\ gdp_dpe d <> []) \/ (kw_dg k = GivenNone /\ gdp_dg d <> []) \/
  (kw_dv k = GivenNone /\ gdp_dv d <> []) \/ (kw_de k = GivenNone /\ gdp_de d <> []).

(** C94: GraphDp.to_dot is the function to_dot with, for each kind of style, the styles given by the caller and those of the
    GraphDp that the caller does not give, provided that the GraphDp has no extra_style. *)
Theorem C94_to_dot tags directed vertices edges d k : gdp_keys d -> ~ none_given d k -> gdp_extra_style d = [] ->
  GraphDp_to_dot tags directed vertices edges d k =
    Ok (to_dot tags directed (match kw_vs k with Some l => l | None => vertices end) (match kw_es k with Some l => l | None => edges end)
      (DotArgs (merged (gdp_dg d) (given (kw_dg k))) (given (kw_extra_style k)) (merged (gdp_dv d) (given (kw_dv k))) (merged (gdp_de d) (given (kw_de k)))
         (merged (gdp_dpv d) (given (kw_dpv k))) (merged (gdp_dpe d) (given (kw_dpe k))) (kw_graphviz_style k))).
Proof.
  intros (K1 & K2 & K3 & K4 & K5) NG EX. unfold GraphDp_to_dot.
  destruct (enrich_kwargs_value (gdp_dpv d) (kw_dpv k) K1) as (x1 & -> & V1). { intros Q. destruct (gdp_dpv d) eqn:Z; [reflexivity|]. destruct NG. left. split; [exact Q|rewrite Z; discriminate]. }
  destruct (enrich_kwargs_value (gdp_dpe d) (kw_dpe k) K2) as (x2 & -> & V2). { intros Q. destruct (gdp_dpe d) eqn:Z; [reflexivity|]. destruct NG. right. left. split; [exact Q|rewrite Z; discriminate]. }
  destruct (enrich_kwargs_value (gdp_dg d) (kw_dg k) K3) as (x3 & -> & V3). { intros Q. destruct (gdp_dg d) eqn:Z; [reflexivity|]. destruct NG. right. right. left. split; [exact Q|rewrite Z; discriminate]. }
  destruct (enrich_kwargs_value (gdp_dv d) (kw_dv k) K4) as (x4 & -> & V4). { intros Q. destruct (gdp_dv d) eqn:Z; [reflexivity|]. destruct NG. right. right. right. left. split; [exact Q|rewrite Z; discriminate]. }
  destruct (enrich_kwargs_value (gdp_de d) (kw_de k) K5) as (x5 & -> & V5). { intros Q. destruct (gdp_de d) eqn:Z; [reflexivity|]. destruct NG. right. right. right. right. split; [exact Q|rewrite Z; discriminate]. }
  rewrite EX. cbn [rbind enrich_extra_style]. unfold kw_args. cbn [kw_dpv kw_dpe kw_dg kw_dv kw_de kw_extra_style kw_graphviz_style]. rewrite V1, V2, V3, V4, V5. reflexivity.
Qed.
(** The merged dictionary maps a name to the value given by the caller, if any, otherwise to the value in the GraphDp. *)
Theorem C94_merged {V} (own given : dict str V) x : dget (merged own given) x = match dget given x with Some v => Some v | None => dget own x end.
Proof.
  unfold merged. rewrite dget_app. destruct (dget given x) as [v|] eqn:G; [reflexivity|]. induction own as [|[k v] own IH]; [reflexivity|]. cbn [filter fst dget]. unfold dmem at 1.
  destruct (eqb_spec x k) as [->|N].
  - rewrite G. cbn [negb dget]. rewrite eqb_refl. reflexivity.
  - destruct (dget given k); cbn [negb dget]; [exact IH|]. destruct (eqb_spec x k); [contradiction|exact IH].
Qed.
(** In the other cases it raises. *)
Theorem C94_raises tags directed vertices edges d k : none_given d k \/ gdp_extra_style d <> [] <-> GraphDp_to_dot tags directed vertices edges d k = Raise AttributeError.
Proof.
  assert (X : forall V (own : dict str V) x, (exists y, enrich_kwargs own x = Ok y /\ ~ (x = GivenNone /\ own <> [])) \/ (enrich_kwargs own x = Raise AttributeError /\ x = GivenNone /\ own <> [])).
  { intros V own x. destruct own as [|a own]; [left; eexists; split; [reflexivity|tauto]|]. destruct x as [| |y]; [left; eexists; split; [reflexivity|intros [Q _]; discriminate]| |left; eexists; split; [reflexivity|intros [Q _]; discriminate]]. right. split; [reflexivity|]. split; [reflexivity|discriminate]. }
  unfold GraphDp_to_dot, none_given.
  destruct (X _ (gdp_dpv d) (kw_dpv k)) as [(y1 & -> & N1)|(-> & N1)]; cbn [rbind]; [|split; [reflexivity|intros _; left; left; exact N1]].
  destruct (X _ (gdp_dpe d) (kw_dpe k)) as [(y2 & -> & N2)|(-> & N2)]; cbn [rbind]; [|split; [reflexivity|intros _; left; right; left; exact N2]].
  destruct (X _ (gdp_dg d) (kw_dg k)) as [(y3 & -> & N3)|(-> & N3)]; cbn [rbind]; [|split; [reflexivity|intros _; left; right; right; left; exact N3]].
  destruct (X _ (gdp_dv d) (kw_dv k)) as [(y4 & -> & N4)|(-> & N4)]; cbn [rbind]; [|split; [reflexivity|intros _; left; right; right; right; left; exact N4]].
  destruct (X _ (gdp_de d) (kw_de k)) as [(y5 & -> & N5)|(-> & N5)]; cbn [rbind]; [|split; [reflexivity|intros _; left; right; right; right; right; exact N5]].
  destruct (gdp_extra_style d) as [|a l]; cbn [enrich_extra_style rbind].
  - split; [intros [[N|[N|[N|[N|N]]]]|N]; try contradiction; destruct (N eq_refl)|discriminate].
  - split; [reflexivity|]. intros _. right. discriminate.
Qed.
(** The other getters give the dictionaries of the constructor; those of the class GraphvizStyle when they are missing or empty. *)
Theorem C94_getters dpv dpe dg dv de extra_style :
  let d := GraphDp_init dpv dpe dg dv de extra_style in
  let given {X} (x : option (list X)) (default : list X) (y : list X) := match x with None | Some [] => y = default | Some l => y = l end in
  exists x1 x2 x3 x4, get_dpv d = Ok x1 /\ get_dg d = Ok x2 /\ get_dv d = Ok x3 /\ get_de d = Ok x4 /\
    given dpv [] x1 /\
    given dg [(lit "fontcolor", lit "black"); (lit "bgcolor", lit "transparent"); (lit "rankdir", lit "LR")] x2 /\
    given dv [(lit "color", lit "black"); (lit "fontcolor", lit "black"); (lit "fillcolor", lit "transparent"); (lit "shape", lit "circle")] x3 /\
    given de [(lit "color", lit "black"); (lit "fontcolor", lit "black")] x4.
Proof.
  intros d given. exists (gdp_dpv d), (gdp_dg d), (gdp_dv d), (gdp_de d). do 4 (split; [reflexivity|]).
  unfold d, given. repeat split; [destruct dpv as [[|a l]|]|destruct dg as [[|a l]|]|destruct dv as [[|a l]|]|destruct de as [[|a l]|]]; reflexivity.
Qed.
(** An extra_style makes to_dot raise; get_dpe always raises. *)
Theorem C94_extra_style_refuted : exists d, d = GraphDp_init None None None None None (Some [lit "splines=true"]) /\
  forall tags directed vertices edges k, exists ex, GraphDp_to_dot tags directed vertices edges d k = Raise ex.
Proof. eexists. split; [reflexivity|]. intros. exists AttributeError. apply C94_raises. right. discriminate. Qed.
Theorem C94_get_dpe_refuted : exists d, gdp_dpe d <> [] /\ get_dpe d = Raise AttributeError.
Proof. exists c93_d. split; [discriminate|reflexivity]. Qed.

(** The text of a GraphDp on a directed graph gives the graph back, up to the names of the vertices. *)
Theorem C94_round_trip tags n ops d : let g := fst (run DG_call (G_init n) ops) in
  Permutation tags GRAPHVIZ_SUPPORTED_HTML_TAGS -> (forall e, In e (G_edges g) -> In (target e) (G_vertices g)) -> gdp_keys d -> gdp_extra_style d = [] ->
  args_ok (G_vertices g) (G_edges g) (DotArgs (gdp_dg d) [] (gdp_dv d) (gdp_de d) (gdp_dpv d) (gdp_dpe d) None) ->
  exists dot g' f, GraphDp_to_dot tags true (G_vertices g) (G_edges g) d (mkKwargs None None Absent Absent Absent Absent Absent Absent None) = Ok dot /\
    read_graphviz G_add_edge dot (G_init 0) = (g', Ok tt) /\ renamed f (G_vertices g) (G_edges g) (G_vertices g') (G_edges g').
Proof.
  intros g P C K EX A. destruct (C62_directed_partial tags n ops _ P C A) as (g' & R & f & RN). rewrite C94_to_dot; [|exact K| |exact EX].
  - eexists. exists g', f. split; [reflexivity|]. split; [|exact RN]. cbn [kw_vs kw_es kw_dpv kw_dpe kw_dg kw_dv kw_de kw_extra_style kw_graphviz_style given].
    assert (M : forall V (own : dict str V), merged own [] = own) by (intros V own; unfold merged; cbn [app]; induction own as [|x own IH]; [reflexivity|]; exact (f_equal (cons x) IH)).
    rewrite !M. exact R.
  - intros [[Q _]|[[Q _]|[[Q _]|[[Q _]|[Q _]]]]]; discriminate Q.
Qed.

Example c94_keys : gdp_keys c93_d.
Proof. repeat split; vm_compute; repeat constructor; cbn; intuition discriminate. Qed.
Example c94_run : GraphDp_to_dot GRAPHVIZ_SUPPORTED_HTML_TAGS true [0; 10] [Edge 0 10 0] c93_d
    (mkKwargs None None Absent (Given [(lit "color", fun _ => Some (lit "blue"))]) (Given [(lit "rankdir", lit "TB")]) (Given []) (Given [(lit "color", lit "gray")]) Absent (Some [])) =
  Ok (lit "digraph G {" ++ nl ++ lit "  graph [rankdir=""TB""; fontcolor=""black""; bgcolor=""transparent""];" ++ nl ++
      lit "  node [color=""black""; fontcolor=""black""; fillcolor=""transparent""; shape=""circle""];" ++ nl ++
      lit "  edge [color=""gray""; fontcolor=""black""];" ++ nl ++
      lit "  0 [label=<ok>; color=""red""];" ++ nl ++ lit "  10 [color=""red""];" ++ nl ++
      lit "  0 -> 10 [color=""blue""; label=<10>];" ++ nl ++ lit "}").
Proof. vm_compute. reflexivity. Qed.
Example c94_not_none : ~ none_given c93_d (mkKwargs None None Absent (Given [(lit "color", fun _ => Some (lit "blue"))]) (Given [(lit "rankdir", lit "TB")]) (Given []) (Given [(lit "color", lit "gray")]) Absent (Some [])).
Proof. intros [[Q _]|[[Q _]|[[Q _]|[[Q _]|[Q _]]]]]; discriminate Q. Qed.

Example c94_trip : exists dot g' f, GraphDp_to_dot GRAPHVIZ_SUPPORTED_HTML_TAGS true (G_vertices ex_g) (G_edges ex_g) (GraphDp_init None None None None None None)
    (mkKwargs None None Absent Absent Absent Absent Absent Absent None) = Ok dot /\
  read_graphviz G_add_edge dot (G_init 0) = (g', Ok tt) /\ renamed f (G_vertices ex_g) (G_edges ex_g) (G_vertices g') (G_edges g').
Proof.
  apply C94_round_trip; [apply Permutation_refl|exact (proj2 C62_example_edges)| |reflexivity|].
  - repeat split; vm_compute; repeat constructor; cbn; intuition discriminate.
  - assert (PO : forall l, forallb (fun '(k, v) => forallb (fun c => negb (linebreak c)) k && forallb (fun c => negb (linebreak c)) v) l = true -> pairs_ok l).
    { intros l F k v I. rewrite forallb_forall in F. apply F in I. apply andb_true_iff in I. split; apply one_line_lit; apply I. }
    split; [exact I|]. split; [split; [intros c []|intros [|w ws] c r Q; discriminate Q]|]. split; [apply PO; vm_compute; reflexivity|]. split; [apply PO; vm_compute; reflexivity|]. split; [apply PO; vm_compute; reflexivity|].
    split; intros k p [].
Qed.

Print Assumptions C94_to_dot.
Print Assumptions C94_merged.
Print Assumptions C94_raises.
Print Assumptions C94_getters.
Print Assumptions C94_extra_style_refuted.
Print Assumptions C94_get_dpe_refuted.
Print Assumptions C94_round_trip.
