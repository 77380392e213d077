(** C118: the arguments pmap_vlabel and pmap_elabel of revuz_minimize. *)
From Coq Require Import ZArith.
From Verif Require Import Graph GraphProofs Automaton AutomatonSpec AutomatonProofs AutomatonProofs2 Heap Revuz RevuzSpec RevuzProofs RevuzProofs2 RevuzProofs3 TRevuz RevuzLab RevuzLabSpec RevuzLabProofs Base BaseProofs.

Section A.
  Context {A B : Type} {EA : EqDec A} {EB : EqDec B}.
  Lemma follows_rep (pv : option (nat -> B)) (g g' : iaut A) s s' x y : iarep g s -> iarep g' s' -> follows (state_label pv) g g' x y <-> sfollows pv s s' x y.
  Proof.
    intros R R'. assert (HF : forall q, A_is_final (ia_base g) q = aa_final s q) by apply R. assert (HF' : forall q, A_is_final (ia_base g') q = aa_final s' q) by apply R'.
    assert (PP : forall (h : iaut A) t q w r, iarep h t -> path (IA_edges h) q w r <-> path (aa_T t) q w r) by (intros h t q w r K; split; apply path_perm; intros e; rewrite (edges_iff h t K); tauto).
    split; intros H w r P; apply (PP _ _ _ _ _ R) in P; destruct (H w r P) as (r' & P' & L & F); exists r'; (split; [apply (PP _ _ _ _ _ R'), P'|]); (split; [exact L|]); [rewrite <- HF, <- HF'|rewrite HF, HF']; exact F.
  Qed.
  Lemma behaviour_rep (pv : option (nat -> B)) (g g' : iaut A) s s' x y : iarep g s -> iarep g' s' -> same_behaviour (state_label pv) g g' x y <-> beh pv s s' x y.
  Proof. intros R R'. unfold same_behaviour, beh. rewrite (follows_rep pv g g' s s' x y R R'), (follows_rep pv g' g s' s y x R' R). tauto. Qed.

  (** C118, when the labels of the transitions are their symbols: the states that remain are the smallest of each class of states with the same behaviour, and each keeps its behaviour. So a state is
      never merged with a state that has another label. *)
  Theorem C118_labels_partial (pmap_vlabel : option (nat -> B)) (pmap_elabel : option (edge A -> A)) n (ops : list (aop A)) fuel ord ord_v :
    match pmap_elabel with None => True | Some f => forall e, f e = distinguisher e end ->
    disciplined (aa_init n) ops -> valid_order ord -> valid_order ord_v ->
    let g := fst (runs IA_call (IA_init n) ops) in
    let lab q := option_map (fun f => f q) pmap_vlabel in
    acyclic (aut_arc (IA_edges g)) -> length (IA_vertices g) <= fuel ->
    exists g' h, lrevuz_minimize pmap_vlabel pmap_elabel fuel ord ord_v [] g = Some (g', Ok h) /\ A_initial (ia_base g') = A_initial (ia_base g) /\
      (forall q, In q (IA_vertices g') <-> In q (IA_vertices g) /\ forall q', In q' (IA_vertices g) -> q' < q -> ~ same_behaviour lab g g q' q) /\
      (forall q, In q (IA_vertices g) -> exists q', In q' (IA_vertices g') /\ q' <= q /\ same_behaviour lab g g q' q) /\
      (forall q, In q (IA_vertices g') -> same_behaviour lab g g' q q) /\
      (forall e, In e (IA_edges g') -> In (source e) (IA_vertices g') /\ In (target e) (IA_vertices g')) /\
      (forall i, A_initial (ia_base g) = Some i -> In i (IA_vertices g') -> forall w, A_accepts (ia_base g') w = A_accepts (ia_base g) w) /\
      (forall i, A_initial (ia_base g) = Some i -> ~ In i (IA_vertices g') -> forall w, A_accepts (ia_base g') w = match w with [] => A_is_final (ia_base g) i | _ => false end) /\
      ((h = (-1)%Z /\ IA_vertices g = []) \/ exists v k, In v (IA_vertices g) /\ height_is (aut_arc (IA_edges g)) v k /\ h = Z.of_nat k /\ forall u m, In u (IA_vertices g) -> height_is (aut_arc (IA_edges g)) u m -> m <= k).
  Proof.
    intros LB D OE OV g lab AC F. change lab with (state_label pmap_vlabel). clear lab.
    assert (LAB : forall e, edge_label pmap_elabel e = distinguisher e) by (intros e; destruct pmap_elabel; [apply LB|reflexivity]).
    destruct (iarep_runs ops _ _ (iarep_init n) D) as [R _]. fold g in R. set (s := fst (runs ia_step (aa_init n) ops)) in R. clearbody g s. clear D ops n LB.
    destruct (heights_of g s ord_v [] fuel R AC OV F) as (r & m & E & HT & _ & _). unfold lrevuz_minimize. rewrite E. clear E.
    pose (ht := height_of m). assert (EV : IA_vertices g = aa_V s) by apply (obs_vertices _ _ (proj1 R)).
    assert (HI : forall v, In v (aa_V s) -> height_is (aut_arc (IA_edges g)) v (ht v)).
    { intros v Vv. rewrite <- EV in Vv. destruct (HT v Vv) as (k & G & HK & _). unfold ht, height_of. rewrite G. exact HK. }
    assert (SHORT : forall v, In v (aa_V s) -> ht v < length (aa_V s)).
    { intros v Vv. destruct (HI v Vv) as [(l & _ & P) _]. rewrite <- EV in *. revert P Vv. apply path_short; [intros x y; apply (arc_in g s x y R)|exact AC]. }
    assert (I0 : linv pmap_vlabel ht s 0 (leaves_of (IA_vertices g) (fun q => length (IA_out_edges g q)) []) s).
    { split; try reflexivity; auto.
      - intros v _. apply beh_refl.
      - intros p x a J. destruct (iarep_closed g s R _ _ _ J) as [Vp Vx]. destruct (HI x Vx) as [(l & L & P) _]. destruct (HI p Vp) as [_ MX]. apply (MX (S (ht x)) l L). econstructor; [exists a; apply (edges_iff g s R), J|exact P].
      - intros p k Vp Hp. destruct (HI p Vp) as [(l & L & P) MX]. rewrite Hp in *. apply upath_first in P; [|exact L]. destruct P as (u & [a J] & P). apply (edges_iff g s R) in J. destruct (iarep_closed g s R _ _ _ J) as [_ Vu]. exists u, a. split; [exact J|].
        destruct (HI u Vu) as [(l' & L' & P') MX']. pose proof (MX' k l L P). specialize (MX (S (ht u)) l' L'). assert (S (ht u) <= S k); [|lia]. apply MX. econstructor; [exists a; apply (edges_iff g s R), J|exact P'].
      - cbn [leaves_of]. rewrite EV. split; [apply NoDup_filter, (iarep_nodup g s R)|]. intros v. rewrite filter_In, Nat.eqb_eq, (out0 g s v R). split.
        + intros [Vv L]. split; [exact Vv|]. destruct (HI v Vv) as [(l & L' & P) _]. destruct (ht v) as [|k]; [reflexivity|]. apply upath_first in P; [|exact L']. destruct P as (u & J & _). destruct (L u J).
        + intros [Vv H0]. split; [exact Vv|]. destruct (HI v Vv) as [(l & L' & P) _]. rewrite H0 in P. apply upath_first in P; [|exact L']. subst l. exact L'.
      - intros; lia.
      - intros v Vv NV. contradiction. }
    destruct (lminimize_loop_spec pmap_vlabel pmap_elabel m LAB ord ord_v s (length (aa_V s)) OE OV SHORT fuel 0 _ g s R I0) as (g' & s' & h' & E & R' & I' & _ & K); [rewrite <- EV; lia|].
    exists g', (Z.of_nat h' - 1)%Z. split; [exact E|]. fold ht in I', K.
    assert (EV' : IA_vertices g' = aa_V s') by apply (obs_vertices _ _ (proj1 R')).
    assert (Q0 : A_initial (ia_base g') = A_initial (ia_base g)).
    { assert (Q1 : A_initial (ia_base g) = aa_q0 s) by apply R. assert (Q2 : A_initial (ia_base g') = aa_q0 s') by apply R'. rewrite Q1, Q2. apply (l_q0 _ _ _ _ _ _ I'). }
    assert (HF : forall q, A_is_final (ia_base g) q = aa_final s q) by apply R. assert (HF' : forall q, A_is_final (ia_base g') q = aa_final s' q) by apply R'.
    assert (BEH : forall q, In q (aa_V s') -> same_behaviour (state_label pmap_vlabel) g g' q q) by (intros q Vq; apply (behaviour_rep pmap_vlabel g g' s s' q q R R'), (l_same _ _ _ _ _ _ I' q Vq)).
    assert (MIN : forall x y, In x (aa_V s') -> In y (aa_V s') -> beh pmap_vlabel s s x y -> x = y).
    { intros x y Vx Vy SW. apply (beh_uniq pmap_vlabel ht s h' g' s' R' I' (S (ht x)) x y); [lia|assumption..|]. apply (beh_trans _ _ s _ _ x); [apply beh_sym, (l_same _ _ _ _ _ _ I' x Vx)|]. apply (beh_trans _ _ s _ _ y); [exact SW|apply (l_same _ _ _ _ _ _ I' y Vy)]. }
    assert (REP : forall q, In q (aa_V s) -> exists q', In q' (aa_V s') /\ q' <= q /\ (q' = q \/ q' < q) /\ beh pmap_vlabel s s q' q).
    { intros q Vq. destruct (in_dec Nat.eq_dec q (aa_V s')) as [V'|NV]; [exists q; repeat split; auto; apply beh_refl|]. destruct (l_removed _ _ _ _ _ _ I' q Vq NV) as (q' & V' & [L' _] & SW). exists q'. split; [exact V'|]. split; [lia|]. auto. }
    split; [exact Q0|]. rewrite EV, EV'. split; [|split; [|split; [|split; [|split; [|split]]]]].
    - intros q. split.
      + intros Vq. split; [apply (l_V _ _ _ _ _ _ I' q Vq)|]. intros q' V' L' N. apply (behaviour_rep pmap_vlabel g g s s q' q R R) in N. destruct (REP q' V') as (q2 & V2 & L2 & _ & S2).
        assert (q2 = q); [|lia]. apply MIN; [exact V2|exact Vq|]. apply (beh_trans _ _ s _ _ q'); assumption.
      + intros [Vq H]. destruct (REP q Vq) as (q' & V' & _ & [->|L'] & S'); [exact V'|]. exfalso. apply (H q' (l_V _ _ _ _ _ _ I' q' V') L'). apply (behaviour_rep pmap_vlabel g g s s q' q R R). exact S'.
    - intros q Vq. destruct (REP q Vq) as (q' & V' & L' & _ & S'). exists q'. split; [exact V'|]. split; [exact L'|]. apply (behaviour_rep pmap_vlabel g g s s q' q R R). exact S'.
    - exact BEH.
    - intros [p q a] J. apply (edges_iff g' s' R') in J. cbn [source target]. apply (iarep_closed g' s' R' _ _ _ J).
    - intros i Ei Vi w. apply eq_iff_eq_true. rewrite (accepts_path _ _ (proj1 R')), (accepts_path _ _ (proj1 R)). destruct (BEH i Vi) as [B1 B2]. split; intros (i' & t & Ei' & P & FT).
      + rewrite Q0 in Ei'. assert (i' = i) as -> by congruence. destruct (B2 w t P) as (t' & P' & _ & FE). exists i, t'. split; [exact Ei|]. split; [exact P'|]. congruence.
      + assert (i' = i) as -> by congruence. destruct (B1 w t P) as (t' & P' & _ & FE). exists i, t'. split; [congruence|]. split; [exact P'|]. congruence.
    - intros i Ei NV w. apply eq_iff_eq_true. rewrite (accepts_path _ _ (proj1 R')). split.
      + intros (i' & t & Ei' & P & FT). rewrite Q0 in Ei'. assert (i' = i) as -> by congruence. destruct w as [|a w].
        * inversion P; subst. rewrite HF, <- (l_final _ _ _ _ _ _ I'), <- HF'. exact FT.
        * exfalso. inversion P as [|? ? x ? ? J P']; subst. apply (edges_iff g' s' R') in J. apply NV, (iarep_closed g' s' R' _ _ _ J).
      + destruct w as [|a w]; [|discriminate]. intros FT. exists i, i. rewrite Q0. split; [exact Ei|]. split; [constructor|]. rewrite HF', (l_final _ _ _ _ _ _ I'), <- HF. exact FT.
    - assert (UB : forall v, In v (aa_V s) -> ht v < h').
      { intros v Vv. assert (CL : forall p r a, In (Edge p r a) (aa_T s') -> In r (aa_V s')) by (intros p x a J; apply (iarep_closed g' s' R' _ _ _ J)). destruct (in_dec Nat.eq_dec v (aa_V s')) as [V'|NV]; [apply (llevel_empty pmap_vlabel ht s h' s' I' v V' CL)|]. destruct (l_removed _ _ _ _ _ _ I' v Vv NV) as (q & Vq & [_ <-] & _). apply (llevel_empty pmap_vlabel ht s h' s' I' q Vq CL). }
      destruct h' as [|h'].
      + left. split; [reflexivity|]. clear -UB. destruct (aa_V s) as [|v l]; [reflexivity|]. specialize (UB v (or_introl eq_refl)). lia.
      + right. destruct (K h' ltac:(lia)) as (v & Vv & Hv). exists v, h'. split; [exact Vv|]. split; [rewrite <- Hv; apply HI, Vv|]. split; [lia|]. intros u k Vu HK.
        pose proof (UB u Vu). destruct HK as [(l & L & P) _]. pose proof (proj2 (HI u Vu) k l L P). lia.
  Qed.

  (** Without property maps, this is the function of Revuz.v, on any automaton. *)
  Lemma lagg_default (m : list (@signature A * list nat)) s q :
    let up (x : @signature A * list nat) : @lsignature A B * list nat := ((fst (fst x), None, snd (fst x)), snd x) in
    lagg_add (map up m) (fst s, None, snd s) q = map up (agg_add m s q).
  Proof.
    cbv zeta. induction m as [|[k G] m IH]; [reflexivity|]. cbn [map agg_add lagg_add fst snd].
    assert (E : lsig_eqb (fst s, @None B, snd s) (fst k, None, snd k) = sig_eqb s k).
    { unfold lsig_eqb, sig_eqb. cbn [fst snd]. f_equal. apply eq_iff_eq_true. rewrite !(eqb_eq _ _). split; congruence. }
    rewrite E. destruct (sig_eqb s k); [reflexivity|]. cbn [map fst snd]. f_equal. exact IH.
  Qed.
  Theorem C118_default fuel ord ord_v leaves (g : iaut A) : lrevuz_minimize (@None (nat -> B)) None fuel ord ord_v leaves g = revuz_minimize fuel ord ord_v leaves g.
  Proof.
    unfold lrevuz_minimize, revuz_minimize. destruct (revuz_height _ _ _ _ _ _ _) as [[r heights]|]; [|reflexivity]. generalize (leaves_of (IA_vertices g) (fun q => length (IA_out_edges g q)) leaves) as todo. generalize 0 as h. revert g.
    induction fuel as [|fuel IH]; intros g h todo; (destruct todo as [|x todo]; [reflexivity|]); [reflexivity|]. cbn [lminimize_loop minimize_loop]. generalize (ord_v fuel (x :: todo)) as l. intros l.
    assert (E : forall g0, foreach (lmerge_group None ord) g0 (laggregates (@None (nat -> B)) None g l) = foreach (merge_group ord) g0 (aggregates g l)).
    { pose (up := fun x : @signature A * list nat => ((fst (fst x), @None B, snd (fst x)), snd x)). assert (EA' : laggregates (@None (nat -> B)) None g l = map up (aggregates g l)).
      { unfold laggregates, aggregates. change (@nil (@lsignature A B * list nat)) with (map up []). generalize (@nil (@signature A * list nat)) as m. induction l as [|q l IHl]; intros m; [reflexivity|]. cbn [fold_left]. rewrite <- IHl. f_equal. apply (lagg_default m (make_signature g q) q). }
      intros g0. rewrite EA'. generalize (aggregates g l) as m. intros m. revert g0. induction m as [|[k G] m IHm]; intros g0; cbn [map foreach]; [reflexivity|]. unfold up at 1. cbn [fst snd].
      pose proof (lmerge_group_eq (@None (edge A -> A)) (fun e => eq_refl) ord g0 (fst k, @None B, snd k) G k) as EG. cbv beta delta [lsignature] in EG. match goal with |- context [lmerge_group None ord g0 ?d] => change (lmerge_group None ord g0 d = merge_group ord g0 (k, G)) in EG; rewrite EG end. clear EG. destruct (merge_group ord g0 (k, G)) as [g1 [u|e]]; [apply IHm|reflexivity]. }
    rewrite E. destruct (foreach (merge_group ord) g (aggregates g l)) as [g1 [u|e]]; [|reflexivity]. apply IH.
  Qed.
End A.
Print Assumptions C118_labels_partial.
Print Assumptions C118_default.

(** With other labels on the transitions, words are lost, and not only because they are spelled with other symbols: 0 -0-> 1, 0 -1-> 2, 1 and 2 final; the map exchanges the labels 0 and 1. The transition
    0 -1-> 2 becomes 0 -0-> 1, which exists. *)
Theorem C118_edge_labels_refuted : exists (ops : list (aop nat)) (f : edge nat -> nat) g', disciplined (aa_init 3) ops /\
  (forall e e', f e = f e' <-> distinguisher e = distinguisher e') /\
  let g := fst (runs IA_call (IA_init 3) ops) in
  acyclic (aut_arc (IA_edges g)) /\ lrevuz_minimize (@None (nat -> nat)) (Some f) 3 id_ord id_ord [] g = Some (g', Ok 1%Z) /\
  (spelled f g 0 [0] /\ ~ spelled f g' 0 [0]) /\ (A_accepts (ia_base g) [1] = true /\ A_accepts (ia_base g') [1] = false).
Proof.
  pose (f := fun e : edge nat => match distinguisher e with 0 => 1 | 1 => 0 | n => n end).
  exists [AAddEdge 0 1 0; AAddEdge 0 2 1; ASetFinal 1 true; ASetFinal 2 true], f. eexists. split; [cbn; intuition discriminate|]. split.
  { intros e e'. unfold f. destruct (distinguisher e) as [|[|d]], (distinguisher e') as [|[|d']]; split; congruence. }
  intros g. split; [|split; [vm_compute; reflexivity|]].
  - assert (UP : forall u v, aut_arc (IA_edges g) u v -> u < v) by (intros u v [a I]; vm_compute in I; repeat (destruct I as [I|I]; [injection I as <- <- <-; lia|]); destruct I).
    intros k v P. assert (G : forall k u v, upath (aut_arc (IA_edges g)) k u v -> u <= v /\ (0 < k -> u < v)) by (clear -UP; induction 1 as [|k u v x R P IH]; [lia|]; specialize (UP _ _ R); lia). destruct (G _ _ _ P) as [_ L]. lia.
  - split; [split|vm_compute; auto].
    + apply (sp_cons f g (Edge 0 2 1) []); [vm_compute; auto|]. constructor. reflexivity.
    + intros S. inversion S as [|e w I S' Es Ew]. subst. vm_compute in I. destruct I as [<-|[]]. discriminate Ew.
Qed.
Print Assumptions C118_edge_labels_refuted.

(** The automaton of the Example of C48 with a label on 2: 4 is merged with 3, but 2 is not merged with 1. *)
Example C118_example : match lrevuz_minimize (Some (fun q => q =? 2)) None 5 id_ord id_ord [] ex_g with
  | Some (g', Ok h) => IA_vertices g' = [0; 1; 2; 3] /\ IA_edges g' = [Edge 0 1 1; Edge 0 2 2; Edge 1 3 3; Edge 2 3 3] /\ h = 2%Z
  | _ => False
  end.
Proof. vm_compute. auto. Qed.
Example C118_example_applies : exists g' h, lrevuz_minimize (Some (fun q => q =? 2)) (Some distinguisher) 5 id_ord id_ord [] ex_g = Some (g', Ok h) /\
  ~ same_behaviour (fun q => Some (q =? 2)) ex_g ex_g 1 2 /\ forall w, A_accepts (ia_base g') w = A_accepts (ia_base ex_g) w.
Proof.
  destruct (C118_labels_partial (Some (fun q => q =? 2)) (Some distinguisher) 5 ex_ops 5 id_ord id_ord (fun e => eq_refl) ex_disciplined (id_ord_valid _) (id_ord_valid _) ex_acyclic) as (g' & h & E & _ & KEEP & _ & _ & _ & L & _); [vm_compute; lia|].
  exists g', h. split; [exact E|]. split.
  - intros [H _]. destruct (H [] 1) as (r & P & LB & _); [constructor|]. inversion P; subst. discriminate LB.
  - apply (L 0 eq_refl). apply KEEP. split; [vm_compute; auto|]. intros q' _ Lq. lia.
Qed.
