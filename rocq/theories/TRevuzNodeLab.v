(** C143: the arguments pmap_vlabel and pmap_elabel of revuz_minimize, on the class IncidenceNodeAutomaton. *)
From Coq Require Import ZArith.
From Verif Require Import Graph GraphProofs Automaton AutomatonSpec AutomatonProofs AutomatonProofs2 AutomatonProofs3 NodeAut NodeAutSpec NodeAutProofs Heap Revuz RevuzSpec RevuzProofs RevuzProofs2 RevuzProofs3 TRevuz RevuzNode RevuzNodeSpec RevuzNodeProofs TRevuzNode RevuzLab RevuzLabProofs RevuzNodeLab RevuzNodeLabSpec RevuzNodeLabProofs Base BaseProofs.

Lemma nfollows_rep {A L} {EA : EqDec A} (sym : nat -> option A) (lab : nat -> L) (g g' : naut A) s s' x y : narep sym g s -> narep sym g' s' -> nfollows lab g g' x y <-> sfollows (Some lab) s s' x y.
Proof.
  intros R R'. assert (HF : forall q, na_final g q = aa_final s q) by apply R. assert (HF' : forall q, na_final g' q = aa_final s' q) by apply R'.
  assert (PP : forall (h : naut A) t q w r, narep sym h t -> path (NA_edges h) q w r <-> path (aa_T t) q w r) by (intros h t q w r K; split; apply path_perm; intros e; rewrite (In_obs_nedges sym h t e K); tauto).
  split; intros H w r P; apply (PP _ _ _ _ _ R) in P; destruct (H w r P) as (r' & P' & L0 & F); exists r'; (split; [apply (PP _ _ _ _ _ R'), P'|]); (split; [unfold state_label in *; congruence|]); [rewrite <- HF, <- HF'|rewrite HF, HF']; exact F.
Qed.

(** C143, when two states with the same label have the same symbol, whatever the labels of the transitions: every state has the behaviour of a state that remains, and this one keeps its behaviour. So a
    state is never merged with a state that has another label. If the label of a transition is determined by its target, the states that remain are the smallest of each class of states with the same
    behaviour. *)
Theorem C143_node_labels_partial (A B C : Type) (EA : EqDec A) (EB : EqDec B) (EC : EqDec C) (pmap_vlabel : option (nat -> B)) (pmap_elabel : option (edge (option A) -> C)) (ops : list (rop A)) fuel ord ord_v :
  ndisciplined ns_init (graph_calls ops) -> valid_order ord -> valid_order ord_v ->
  let g := INA_history ops in
  let lab q := match pmap_vlabel with Some f => inr (f q) | None => inl (na_symbol g q) end in
  (forall x y, In x (NA_vertices g) -> In y (NA_vertices g) -> lab x = lab y -> na_symbol g x = na_symbol g y) ->
  acyclic (aut_arc (NA_edges g)) -> length (NA_vertices g) <= fuel ->
  exists g' h, nlrevuz_minimize pmap_vlabel pmap_elabel fuel ord ord_v [] g = Some (g', Ok h) /\ na_q0 g' = na_q0 g /\
    (forall q, In q (NA_vertices g') -> In q (NA_vertices g)) /\
    (match pmap_elabel with None => True | Some f => forall e e', target e = target e' -> f e = f e' end ->
      forall q, In q (NA_vertices g') <-> In q (NA_vertices g) /\ forall q', In q' (NA_vertices g) -> q' < q -> ~ nsame_behaviour lab g g q' q) /\
    (forall q, In q (NA_vertices g) -> exists q', In q' (NA_vertices g') /\ q' <= q /\ nsame_behaviour lab g g q' q) /\
    (forall q, In q (NA_vertices g') -> na_symbol g' q = na_symbol g q /\ nsame_behaviour lab g g' q q) /\
    (forall e, In e (NA_edges g') -> distinguisher e = na_symbol g (target e) /\ In (source e) (NA_vertices g') /\ In (target e) (NA_vertices g')) /\
    (forall i, na_q0 g = Some i -> In i (NA_vertices g') -> forall w, NA_accepts g' w = NA_accepts g w) /\
    (forall i, na_q0 g = Some i -> ~ In i (NA_vertices g') -> forall w, NA_accepts g' w = match w with [] => Ok (na_final g i) | _ => Raise KeyError end) /\
    ((h = (-1)%Z /\ NA_vertices g = []) \/ exists v k, In v (NA_vertices g) /\ height_is (aut_arc (NA_edges g)) v k /\ h = Z.of_nat k /\ forall u m, In u (NA_vertices g) -> height_is (aut_arc (NA_edges g)) u m -> m <= k).
Proof.
  intros D OE OV g lab RF AC F. pose proof (history_rep ops _ _ nrep_init D) as NR. fold (INA_history ops) in NR. fold g in NR. set (s1 := fst (runs ns_step ns_init (graph_calls ops))) in NR.
  pose (sym := ns_sym s1). pose (s := AA (ns_next s1) (ns_V s1) (ns_T s1) (na_q0 g) (na_final g)).
  assert (R : narep sym g s) by (split; [unfold sym; cbn; destruct s1; exact NR|split; reflexivity]).
  pose (pvl := Some (vlab sym pmap_vlabel)).
  assert (LE : forall q, lab q = vlab sym pmap_vlabel q) by (intros q; unfold lab, vlab; destruct pmap_vlabel; [reflexivity|]; rewrite (narep_sym sym g s q R); reflexivity).
  assert (RFS : forall x y, In x (aa_V s) -> In y (aa_V s) -> vlab sym pmap_vlabel x = vlab sym pmap_vlabel y -> sym x = sym y).
  { intros x y Vx Vy. rewrite <- !LE, <- !(narep_sym sym g s _ R). rewrite <- (narep_V sym g s R) in Vx, Vy. apply RF; assumption. }
  assert (nbehaviour_rep : forall g1 g2 t1 t2 x y, narep sym g1 t1 -> narep sym g2 t2 -> nsame_behaviour lab g1 g2 x y <-> beh pvl t1 t2 x y).
  { intros g1 g2 t1 t2 x y R1 R2. unfold nsame_behaviour, beh. rewrite (nfollows_rep sym lab g1 g2 t1 t2 x y R1 R2), (nfollows_rep sym lab g2 g1 t2 t1 y x R2 R1). unfold sfollows, pvl, state_label.
    split; intros [H1 H2]; (split; [intros w r P; destruct (H1 w r P) as (r' & P' & L0 & FF)|intros w r P; destruct (H2 w r P) as (r' & P' & L0 & FF)]); exists r'; (split; [exact P'|]); (split; [|exact FF]); [rewrite <- !LE|rewrite <- !LE|rewrite !LE|rewrite !LE]; exact L0. }
  clearbody lab g sym s. clear D ops NR s1 RF.
  destruct (nheights_of sym g s ord_v [] fuel R AC OV F) as (r & m & E & HT & _ & _). unfold nlrevuz_minimize. rewrite E. clear E.
  pose (ht := height_of m). pose proof (narep_V sym g s R) as EV.
  assert (HI : forall v, In v (aa_V s) -> height_is (aut_arc (NA_edges g)) v (ht v)).
  { intros v Vv. rewrite <- EV in Vv. destruct (HT v Vv) as (k & G & HK & _). unfold ht, height_of. rewrite G. exact HK. }
  assert (SHORT : forall v, In v (aa_V s) -> ht v < length (aa_V s)).
  { intros v Vv. destruct (HI v Vv) as [(l & _ & P) _]. rewrite <- EV in *. revert P Vv. apply path_short; [intros x y; apply (narc_in sym g s x y R)|exact AC]. }
  assert (I0 : nlinv sym pmap_vlabel pmap_elabel ht s 0 (leaves_of (NA_vertices g) (NA_out_degree g) []) s).
  { split; try reflexivity; auto.
    - intros v _. apply beh_refl.
    - intros p x a J. destruct (narep_closed sym g s R _ _ _ J) as [Vp Vx]. destruct (HI x Vx) as [(l & L & P) _]. destruct (HI p Vp) as [_ MX]. apply (MX (S (ht x)) l L). econstructor; [exists a; apply (In_obs_nedges sym g s _ R), J|exact P].
    - intros p k Vp Hp. destruct (HI p Vp) as [(l & L & P) MX]. rewrite Hp in *. apply upath_first in P; [|exact L]. destruct P as (u & [a J] & P). apply (In_obs_nedges sym g s _ R) in J. destruct (narep_closed sym g s R _ _ _ J) as [_ Vu]. exists u, a. split; [exact J|].
      destruct (HI u Vu) as [(l' & L' & P') MX']. pose proof (MX' k l L P). specialize (MX (S (ht u)) l' L'). assert (S (ht u) <= S k); [|lia]. apply MX. econstructor; [exists a; apply (In_obs_nedges sym g s _ R), J|exact P'].
    - cbn [leaves_of]. rewrite EV. split; [apply NoDup_filter, (narep_nodup sym g s R)|]. intros v. rewrite filter_In, Nat.eqb_eq. split.
      + intros [Vv L]. rewrite (nout0 sym g s v R Vv) in L. split; [exact Vv|]. destruct (HI v Vv) as [(l & L' & P) _]. destruct (ht v) as [|k]; [reflexivity|]. apply upath_first in P; [|exact L']. destruct P as (u & J & _). destruct (L u J).
      + intros [Vv H0]. rewrite (nout0 sym g s v R Vv). split; [exact Vv|]. destruct (HI v Vv) as [(l & L' & P) _]. rewrite H0 in P. apply upath_first in P; [|exact L']. subst l. exact L'.
    - intros; lia.
    - intros v Vv NV. contradiction. }
  destruct (nlminimize_loop_spec sym pmap_vlabel pmap_elabel m ord ord_v s (length (aa_V s)) OE OV RFS SHORT fuel 0 _ g s R I0) as (g' & s' & h' & E & R' & I' & _ & K); [rewrite <- EV; lia|].
  exists g', (Z.of_nat h' - 1)%Z. split; [exact E|]. fold ht in I', K.
  pose proof (narep_V sym g' s' R') as EV'.
  assert (Q0 : na_q0 g' = na_q0 g).
  { assert (Q1 : na_q0 g = aa_q0 s) by apply R. assert (Q2 : na_q0 g' = aa_q0 s') by apply R'. rewrite Q1, Q2. apply (n_q0 _ _ _ _ _ _ _ _ I'). }
  assert (BEH : forall q, In q (aa_V s') -> nsame_behaviour lab g g' q q) by (intros q Vq; apply (nbehaviour_rep g g' s s' q q R R'), (n_same _ _ _ _ _ _ _ _ I' q Vq)).
  assert (MIN : tgt pmap_elabel -> forall x y, In x (aa_V s') -> In y (aa_V s') -> beh pvl s s x y -> x = y).
  { intros TGT x y Vx Vy SW. apply (nbeh_uniq sym pmap_vlabel pmap_elabel ht s h' g' s' TGT R' I' (S (ht x)) x y); [lia|assumption..|]. apply (beh_trans _ _ s _ _ x); [apply beh_sym, (n_same _ _ _ _ _ _ _ _ I' x Vx)|]. apply (beh_trans _ _ s _ _ y); [exact SW|apply (n_same _ _ _ _ _ _ _ _ I' y Vy)]. }
  assert (REP : forall q, In q (aa_V s) -> exists q', In q' (aa_V s') /\ q' <= q /\ (q' = q \/ q' < q) /\ beh pvl s s q' q).
  { intros q Vq. destruct (in_dec Nat.eq_dec q (aa_V s')) as [V'|NV]; [exists q; repeat split; auto; apply beh_refl|]. destruct (n_removed _ _ _ _ _ _ _ _ I' q Vq NV) as (q' & V' & [L' _] & SW). exists q'. split; [exact V'|]. split; [lia|]. auto. }
  split; [exact Q0|]. rewrite EV, EV'. split; [apply (n_V _ _ _ _ _ _ _ _ I')|]. split; [|split; [|split; [|split; [|split; [|split]]]]].
  - intros TGT q. split.
    + intros Vq. split; [apply (n_V _ _ _ _ _ _ _ _ I' q Vq)|]. intros q' V' L' N. apply (nbehaviour_rep g g s s q' q R R) in N. destruct (REP q' V') as (q2 & V2 & L2 & _ & S2).
      assert (q2 = q); [|lia]. apply (MIN TGT); [exact V2|exact Vq|]. apply (beh_trans _ _ s _ _ q'); assumption.
    + intros [Vq H]. destruct (REP q Vq) as (q' & V' & _ & [->|L'] & S'); [exact V'|]. exfalso. apply (H q' (n_V _ _ _ _ _ _ _ _ I' q' V') L'). apply (nbehaviour_rep g g s s q' q R R). exact S'.
  - intros q Vq. destruct (REP q Vq) as (q' & V' & L' & _ & S'). exists q'. split; [exact V'|]. split; [exact L'|]. apply (nbehaviour_rep g g s s q' q R R). exact S'.
  - intros q Vq. split; [rewrite (narep_sym sym g' s' q R'), (narep_sym sym g s q R); reflexivity|apply BEH, Vq].
  - intros [p q a] J. apply (In_obs_nedges sym g' s' _ R') in J. cbn [distinguisher source target]. rewrite (narep_sym sym g s q R). split; [apply (narep_label sym g' s' R' _ _ _ J)|apply (narep_closed sym g' s' R' _ _ _ J)].
  - intros i Ei Vi w. pose proof (nv_accepts g _ w (narep_vrep sym g s R)) as B1. pose proof (nv_accepts g' _ w (narep_vrep sym g' s' R')) as B2. cbn [nv_q0 nv_V nv_T nv_final] in B1, B2.
    assert (Q1 : na_q0 g = aa_q0 s) by apply R. assert (Q2 : na_q0 g' = aa_q0 s') by apply R'. rewrite <- Q1, Ei in B1. rewrite <- Q2, Q0, Ei in B2. pose proof (n_V _ _ _ _ _ _ _ _ I' i Vi) as Vs.
    rewrite (proj2 (mem_spec _ _) Vi) in B2. rewrite (proj2 (mem_spec _ _) Vs) in B1. destruct B1 as (b1 & -> & B1), B2 as (b2 & -> & B2). f_equal. apply eq_iff_eq_true. rewrite B1, B2. destruct (n_same _ _ _ _ _ _ _ _ I' i Vi) as [S1 S2]. split; intros (t & P & FT); [destruct (S2 (map Some w) t P) as (t' & P' & _ & FE)|destruct (S1 (map Some w) t P) as (t' & P' & _ & FE)]; exists t'; (split; [exact P'|]); congruence.
  - intros i Ei NV w. pose proof (nv_accepts g' _ w (narep_vrep sym g' s' R')) as B2. cbn [nv_q0 nv_V nv_T nv_final] in B2.
    assert (Q2 : na_q0 g' = aa_q0 s') by apply R'. rewrite <- Q2, Q0, Ei in B2. rewrite (proj2 (mem_false _ _) NV) in B2. rewrite B2, (n_final _ _ _ _ _ _ _ _ I'). assert (HF : forall q, na_final g q = aa_final s q) by apply R. rewrite HF. reflexivity.
  - assert (UB : forall v, In v (aa_V s) -> ht v < h').
    { intros v Vv. assert (CL : forall p r a, In (Edge p r a) (aa_T s') -> In r (aa_V s')) by (intros p x a J; apply (narep_closed sym g' s' R' _ _ _ J)). destruct (in_dec Nat.eq_dec v (aa_V s')) as [V'|NV]; [apply (nllevel_empty sym pmap_vlabel pmap_elabel ht s h' s' I' v V' CL)|]. destruct (n_removed _ _ _ _ _ _ _ _ I' v Vv NV) as (q & Vq & [_ <-] & _). apply (nllevel_empty sym pmap_vlabel pmap_elabel ht s h' s' I' q Vq CL). }
    destruct h' as [|h'].
    + left. split; [reflexivity|]. clear -UB. destruct (aa_V s) as [|v l]; [reflexivity|]. specialize (UB v (or_introl eq_refl)). lia.
    + right. destruct (K h' ltac:(lia)) as (v & Vv & Hv). exists v, h'. split; [exact Vv|]. split; [rewrite <- Hv; apply HI, Vv|]. split; [lia|]. intros u k Vu HK.
      pose proof (UB u Vu). destruct HK as [(l & L & P) _]. pose proof (proj2 (HI u Vu) k l L P). lia.
Qed.
Print Assumptions C143_node_labels_partial.

(** Without property maps, this is the function of RevuzNode.v, on any automaton. *)
Section Default.
  Context {A B C : Type} {EA : EqDec A} {EB : EqDec B} {EC : EqDec C}.
  Definition pin (x : option A * nat) : ((option A + B) + C) * nat := (inl (inl (fst x)), snd x).
  Definition upsig (s : @nsignature A) : @nlsignature A B C := (fst (fst s), inl (snd (fst s)), map pin (snd s)).
  Lemma pin_inj x y : pin x = pin y -> x = y.
  Proof. destruct x, y. unfold pin. cbn. congruence. Qed.
  Lemma In_pin x l : In (pin x) (map pin l) <-> In x l.
  Proof. rewrite in_map_iff. split; [intros (y & E & I); apply pin_inj in E; subst; exact I|eauto]. Qed.
  Lemma mem_pin x l : mem (pin x) (map pin l) = mem x l.
  Proof. apply eq_iff_eq_true. rewrite !mem_spec. apply In_pin. Qed.
  Lemma sadd_pin x l : sadd (pin x) (map pin l) = map pin (sadd x l).
  Proof. unfold sadd. rewrite mem_pin. destruct (mem x l); [reflexivity|]. rewrite map_app. reflexivity. Qed.
  Lemma sof_pin l : sof (map pin l) = map pin (sof l).
  Proof.
    assert (G : forall l acc, sunion (map pin acc) (map pin l) = map pin (sunion acc l)) by (clear l; induction l as [|x l IH]; intros acc; [reflexivity|]; unfold sunion in *; cbn [map fold_left]; rewrite <- IH, <- sadd_pin; reflexivity).
    apply (G l []).
  Qed.
  Lemma upsig_eqb s t : nlsig_eqb (upsig s) (upsig t) = nsig_eqb s t.
  Proof.
    apply eq_iff_eq_true. unfold nlsig_eqb, nsig_eqb. rewrite !andb_true_iff, !set_eqb_spec, !(eqb_eq _ _). destruct s as [[b a] l], t as [[b' a'] l']. cbn [upsig fst snd]. split; intros [H1 H2].
    - split; [congruence|]. intros x. rewrite <- (In_pin x l), <- (In_pin x l'). apply H2.
    - split; [congruence|]. intros y. rewrite !in_map_iff. split; intros (x & E & I); exists x; (split; [exact E|apply H2, I]).
  Qed.
  Lemma nlagg_up m s q : nlagg_add (map (fun x => (upsig (fst x), snd x)) m) (upsig s) q = map (fun x => (upsig (fst x), snd x)) (nagg_add m s q).
  Proof.
    induction m as [|[k G] m IH]; [reflexivity|]. cbn [map nagg_add nlagg_add fst snd]. rewrite upsig_eqb. destruct (nsig_eqb s k); [reflexivity|]. cbn [map fst snd]. f_equal. exact IH.
  Qed.
  Lemma make_up (g : naut A) q : make_nlsignature (@None (nat -> B)) (@None (edge (option A) -> C)) g q = match make_nsignature g q with Ok s => Ok (upsig s) | Raise x => Raise x end.
  Proof.
    unfold make_nlsignature, make_nsignature. destruct (NA_out_edges g q) as [es|x]; [|reflexivity]. cbn [rbind]. unfold upsig. cbn [fst snd]. rewrite <- sof_pin, map_map. reflexivity.
  Qed.
End Default.
Theorem C143_default (A B C : Type) (EA : EqDec A) (EB : EqDec B) (EC : EqDec C) fuel ord ord_v leaves (g : naut A) :
  nlrevuz_minimize (@None (nat -> B)) (@None (edge (option A) -> C)) fuel ord ord_v leaves g = node_revuz_minimize fuel ord ord_v leaves g.
Proof.
  unfold nlrevuz_minimize, node_revuz_minimize. destruct (revuz_height _ _ _ _ _ _ _) as [[r heights]|]; [|reflexivity]. generalize (leaves_of (NA_vertices g) (NA_out_degree g) leaves) as todo. generalize 0 as h. revert g.
  induction fuel as [|fuel IH]; intros g h todo; (destruct todo as [|x todo]; [reflexivity|]); [reflexivity|]. cbn [nlminimize_loop nminimize_loop]. generalize (ord_v fuel (x :: todo)) as l. intros l.
  pose (up := fun x : @nsignature A * list nat => (@upsig A B C (fst x), snd x)).
  assert (EA' : nlaggregates (@None (nat -> B)) (@None (edge (option A) -> C)) g l = (map up (fst (naggregates g l)), snd (naggregates g l))).
  { unfold nlaggregates, naggregates. change (@nil (@nlsignature A B C * list nat)) with (map up []). generalize (@nil (@nsignature A * list nat)) as m. induction l as [|q l IHl]; intros m; [reflexivity|]. cbn [foreach]. rewrite make_up. destruct (make_nsignature g q) as [s|ex]; [|reflexivity]. cbv beta iota. etransitivity; [|apply IHl]. apply (f_equal (fun x => foreach _ x l)). apply nlagg_up. }
  rewrite EA'. clear EA'. destruct (naggregates g l) as [m [u|ex]]; cbn [fst snd]; [|reflexivity].
  assert (E : forall g0, foreach (nlmerge_group ord) g0 (map up m) = foreach (nmerge_group ord) g0 m).
  { induction m as [|[k G] m IHm]; intros g0; cbn [map foreach]; [reflexivity|]. change (nlmerge_group ord g0 (up (k, G))) with (nmerge_group ord g0 (k, G)). destruct (nmerge_group ord g0 (k, G)) as [g1 [v|ex]]; [apply IHm|reflexivity]. }
  rewrite E. destruct (foreach (nmerge_group ord) g m) as [g1 [v|ex]]; [|reflexivity]. apply IH.
Qed.
Print Assumptions C143_default.

(** With labels that are the same on states with different symbols, words are lost: 0 -> 1, 0 -> 2, where 1 and 2 are final and have the symbols 7 and 8. All the labels are the same: 2 is merged with 1,
    and the transition of 0 that read 8 is lost. *)
Theorem C143_coarse_labels_refuted : exists (ops : list (rop nat)) (f : nat -> bool) g', ndisciplined ns_init (graph_calls ops) /\
  let g := INA_history ops in
  acyclic (aut_arc (NA_edges g)) /\ nlrevuz_minimize (Some f) (@None (edge (option nat) -> bool)) 3 id_ord id_ord [] g = Some (g', Ok 1%Z) /\
  NA_accepts g [8] = Ok true /\ NA_accepts g' [8] = Ok false /\ NA_accepts g' [7] = Ok true.
Proof.
  exists [RCall (NAddVertex None); RCall (NAddVertex (Some 7)); RCall (NAddVertex (Some 8)); RCall (NAddEdge 0 1); RCall (NAddEdge 0 2); RSetFinal 1 true; RSetFinal 2 true], (fun _ => true). eexists. split; [cbn; tauto|]. intros g. split; [|split; [vm_compute; reflexivity|split; [reflexivity|split; reflexivity]]].
  assert (UP : forall u v, aut_arc (NA_edges g) u v -> u < v) by (intros u v [a I]; vm_compute in I; destruct I as [I|[I|[]]]; injection I as <- <- <-; lia).
  intros k v P. assert (G : forall k u v, upath (aut_arc (NA_edges g)) k u v -> u <= v /\ (0 < k -> u < v)) by (clear -UP; induction 1 as [|k u v x R P IH]; [lia|]; specialize (UP _ _ R); lia). destruct (G _ _ _ P) as [_ L]. lia.
Qed.
Print Assumptions C143_coarse_labels_refuted.

(** With labels on the transitions that depend on their source, states with the same behaviour remain: 0 -> 2 and 1 -> 2, and the label of a transition is its source. Without this map 1 is merged with 0. *)
Theorem C143_source_labels_refuted : exists (ops : list (rop nat)) (f : edge (option nat) -> nat) g', ndisciplined ns_init (graph_calls ops) /\
  let g := INA_history ops in
  acyclic (aut_arc (NA_edges g)) /\ nlrevuz_minimize (@None (nat -> bool)) (Some f) 3 id_ord id_ord [] g = Some (g', Ok 1%Z) /\
  In 0 (NA_vertices g') /\ In 1 (NA_vertices g') /\ nsame_behaviour (na_symbol g) g g 0 1.
Proof.
  exists [RCall (NAddVertex None); RCall (NAddVertex None); RCall (NAddVertex (Some 7)); RCall (NAddEdge 0 2); RCall (NAddEdge 1 2); RSetFinal 2 true], source. eexists. split; [cbn; tauto|]. intros g. split; [|split; [vm_compute; reflexivity|split; [vm_compute; auto|split; [vm_compute; auto|]]]].
  - assert (UP : forall u v, aut_arc (NA_edges g) u v -> u < v) by (intros u v [a I]; vm_compute in I; destruct I as [I|[I|[]]]; injection I as <- <- <-; lia).
    intros k v P. assert (G : forall k u v, upath (aut_arc (NA_edges g)) k u v -> u <= v /\ (0 < k -> u < v)) by (clear -UP; induction 1 as [|k u v x R P IH]; [lia|]; specialize (UP _ _ R); lia). destruct (G _ _ _ P) as [_ L]. lia.
  - assert (S : forall x y, x < 2 -> y < 2 -> nfollows (na_symbol g) g g x y).
    { intros x y Lx Ly w r P. assert (EG : NA_edges g = [Edge 0 2 (Some 7); Edge 1 2 (Some 7)]) by reflexivity. rewrite EG in *. inversion P as [|? ? t ? ? J P']; subst.
      - exists y. split; [constructor|]. destruct r as [|[|r]], y as [|[|y]]; try lia; split; reflexivity.
      - exists r. split; [|auto]. apply path_cons with t; [|exact P']. destruct J as [J|[J|[]]]; injection J as <- <- <-; destruct y as [|[|y]]; try lia; cbn; auto. }
    split; apply S; lia.
Qed.
Print Assumptions C143_source_labels_refuted.

(** The automaton of the Example of C106, where 4 has another label than 1: 5 is merged with 3, but 4 is not merged with 1. *)
Definition rl_lab (q : nat) : nat := nth q [0; 1; 2; 3; 4; 3] 9.
Example C143_example : match nlrevuz_minimize (Some rl_lab) (Some (fun e : edge (option nat) => target e)) 6 id_ord id_ord [] rn_g with
  | Some (g', Ok h) => NA_vertices g' = [0; 1; 2; 3; 4] /\ NA_edges g' = [Edge 0 1 (Some 1); Edge 0 2 (Some 2); Edge 1 3 (Some 3); Edge 2 4 (Some 1); Edge 2 3 (Some 3); Edge 4 3 (Some 3)] /\ h = 3%Z
  | _ => False
  end.
Proof. vm_compute. auto. Qed.
Example C143_example_applies : exists g' h, nlrevuz_minimize (Some rl_lab) (Some (fun e : edge (option nat) => target e)) 6 id_ord id_ord [] rn_g = Some (g', Ok h) /\ forall w, NA_accepts g' w = NA_accepts rn_g w.
Proof.
  destruct (C143_node_labels_partial nat nat nat _ _ _ (Some rl_lab) (Some (fun e => target e)) rn_ops 6 id_ord id_ord rn_disciplined (id_ord_valid _) (id_ord_valid _)) as (g' & h & E & _ & _ & KEEP & _ & _ & _ & L & _).
  - change (INA_history rn_ops) with rn_g. assert (EV : NA_vertices rn_g = [0; 1; 2; 3; 4; 5]) by (vm_compute; reflexivity). rewrite EV. intros x y Vx Vy LE. cbn [In] in Vx, Vy.
    repeat (destruct Vx as [<-|Vx]; [repeat (destruct Vy as [<-|Vy]; [first [reflexivity|discriminate LE]|]); destruct Vy|]). destruct Vx.
  - exact rn_acyclic.
  - vm_compute. lia.
  - exists g', h. split; [exact E|]. apply (L 0 eq_refl). apply KEEP; [intros e e' T; exact T|]. split; [vm_compute; auto|]. intros q' _ Lq. lia.
Qed.
