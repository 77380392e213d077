(** Properties C64 (closed operators), C65 (colors), C66 (property maps), C67 (aggregated visitors). *)
From Coq Require Import ZArith QArith.
From Verif Require Import Base Misc MiscSpec MiscProofs.

(** C64: the absorbing element absorbs, whatever the operator; elsewhere the operator is the plain one. *)
Theorem C64_closed_absorbing : forall a impl x,
  closed_op a impl a x = a /\ closed_op a impl x a = a.
Proof. exact closed_absorbing. Qed.
Print Assumptions C64_closed_absorbing.

Local Open Scope Z_scope.
Theorem C64_closed_operators : forall a x y, x <> a -> y <> a ->
  closed_plus a x y = x + y /\ closed_time a x y = x * y /\
  closed_max a x y = Z.max x y /\ closed_min a x y = Z.min x y.
Proof.
  intros. unfold closed_plus, closed_time, closed_max, closed_min.
  rewrite !closed_plain by assumption. auto.
Qed.
Print Assumptions C64_closed_operators.

Theorem C64_closed_commutative : forall a x y,
  closed_plus a x y = closed_plus a y x /\ closed_time a x y = closed_time a y x /\
  closed_max a x y = closed_max a y x /\ closed_min a x y = closed_min a y x.
Proof.
  intros. repeat split; apply closed_comm; [apply Z.add_comm|apply Z.mul_comm|apply Z.max_comm|apply Z.min_comm].
Qed.
Print Assumptions C64_closed_commutative.

(** Less and GreaterThan are the strict order of the numbers and its converse. *)
Theorem C64_relations : forall x y,
  (less x y = true <-> x < y) /\ (greater_than x y = true <-> y < x) /\ greater_than x y = less y x.
Proof. intros x y. unfold less, greater_than. rewrite Z.ltb_lt, Z.gtb_lt, Z.gtb_ltb. intuition. Qed.
Print Assumptions C64_relations.

(** Monotonicity fails when a finite sum overtakes the absorbing value ... *)
Theorem C64_closed_plus_monotone_refuted : exists a x x' y,
  0 <= x /\ 0 <= y /\ x <= x' /\ x' <= a /\ closed_plus a x' y < closed_plus a x y.
Proof. exists INFINITY, (INFINITY - 1), INFINITY, 5. vm_compute. intuition discriminate. Qed.
Print Assumptions C64_closed_plus_monotone_refuted.

(** ... and holds as soon as the smaller sum does not exceed it. *)
Theorem C64_closed_plus_monotone_partial : forall a x x' y, 0 <= y -> x <= x' -> x + y <= a ->
  closed_plus a x y <= closed_plus a x' y.
Proof. exact closed_plus_mono. Qed.
Print Assumptions C64_closed_plus_monotone_partial.
Example C64_nontrivial :
  INFINITY = 2 ^ 63 - 1 /\ closed_plus INFINITY 2 3 = 5 /\ closed_plus INFINITY 2 INFINITY = INFINITY /\
  closed_min 0 0 7 = 0 /\ closed_time INFINITY INFINITY 0 = INFINITY.
Proof. vm_compute. auto. Qed.
Local Close Scope Z_scope.

(** C65: color conversions, in exact arithmetic. *)
Local Open Scope Q_scope.
Theorem C65_hsv_roundtrip : forall h s v, 0 <= s <= 1 -> 0 < v <= 1 ->
  let '(h', s', l') := hsv_to_hsl h s v in color_eq (hsl_to_hsv h' s' l') (h, s, v).
Proof. exact hsv_roundtrip. Qed.
Print Assumptions C65_hsv_roundtrip.
Theorem C65_hsl_roundtrip : forall h s l, 0 <= s <= 1 -> 0 < l -> l < 1 ->
  let '(h', s', v') := hsl_to_hsv h s l in color_eq (hsv_to_hsl h' s' v') (h, s, l).
Proof. exact hsl_roundtrip. Qed.
Print Assumptions C65_hsl_roundtrip.
(** The conversions keep the hue, the largest component and the chroma of every color, black and white
    included: each one is right, not only the inverse of the other one. *)
Theorem C65_hsl_to_hsv_same_color : forall h s l, 0 <= s <= 1 -> 0 <= l <= 1 -> same_color (hsl_to_hsv h s l) (h, s, l).
Proof. exact hsl_same. Qed.
Print Assumptions C65_hsl_to_hsv_same_color.
Theorem C65_hsv_to_hsl_same_color : forall h s v, 0 <= s <= 1 -> 0 <= v <= 1 -> same_color (h, s, v) (hsv_to_hsl h s v).
Proof. exact hsv_same. Qed.
Print Assumptions C65_hsv_to_hsl_same_color.
(** ... and black and white get saturation 0. *)
Theorem C65_black_white : forall h s,
  color_eq (hsl_to_hsv h s 0) (h, 0, 0) /\ color_eq (hsl_to_hsv h s 1) (h, 0, 1) /\ color_eq (hsv_to_hsl h s 0) (h, 0, 0).
Proof. intros h s. split; [apply hsl_black|]. split; [apply hsl_white|apply hsv_black]. Qed.
Print Assumptions C65_black_white.
Example C65_nontrivial :
  color_eq (hsv_to_hsl (1#3) (1#2) (4#5)) (1#3, 1#2, 3#5) /\
  color_eq (hsl_to_hsv (1#3) (1#2) (3#5)) (1#3, 1#2, 4#5).
Proof. vm_compute. auto. Qed.
Local Close Scope Q_scope.

(** C66: a history of reads and writes on an associative property map returns the last written values. *)
Theorem C66_property_map_reads : forall (K V : Type) (HK : EqDec K) (default : V) (ops : list (pm_op K V)),
  snd (pm_run (pm_new default) ops) = reads default [] ops.
Proof. exact @pm_reads. Qed.
Print Assumptions C66_property_map_reads.
Theorem C66_read_only_rejects : forall (K V : Type) (p : ro_pmap K V) k v,
  ro_set p k v = (p, Raise RuntimeError).
Proof. reflexivity. Qed.
Print Assumptions C66_read_only_rejects.
Example C66_nontrivial :
  snd (pm_run (pm_new 7) [PmGet 1; PmSet 1 4; PmSet 2 5; PmGet 1; PmSet 1 6; PmGet 2; PmGet 1; PmGet 3])
  = [7; 4; 5; 6; 7].
Proof. vm_compute. reflexivity. Qed.

(** C67: every visitor of an aggregate sees exactly the event sequence, and each event is delivered in
    list order. *)
Theorem C67_aggregated_projection :
  forall (Vis Ev : Type) (HV : EqDec Vis) (visitors : list Vis) (evs : list Ev) v,
  NoDup visitors -> In v visitors ->
  map snd (filter (fun c => eqb (fst c) v) (agg_calls visitors evs)) = evs.
Proof. exact @agg_projection. Qed.
Print Assumptions C67_aggregated_projection.
Theorem C67_aggregated_order : forall (Vis Ev : Type) (visitors : list Vis) (ev : Ev),
  agg_calls visitors [ev] = map (fun v => (v, ev)) visitors.
Proof. exact @agg_order. Qed.
Print Assumptions C67_aggregated_order.
(** get returns the first visitor with the given key, and None exactly when the key is not in keys(). *)
Theorem C67_aggregated_get : forall (Vis : Type) (key_of : Vis -> nat) (visitors : list Vis) k,
  (forall v, agg_get key_of visitors k = Some v <->
    exists before after, visitors = before ++ v :: after /\ key_of v = k /\ forall u, In u before -> key_of u <> k) /\
  (agg_get key_of visitors k = None <-> ~ In k (agg_keys key_of visitors)) /\ NoDup (agg_keys key_of visitors).
Proof.
  intros Vis key_of visitors k. split; [|split; [|apply BaseProofs.NoDup_sof]].
  - intros v. induction visitors as [|w visitors IH]; cbn [agg_get].
    + split; [discriminate|]. intros ([|? ?] & ? & X & _); discriminate.
    + destruct (BaseProofs.eqb_spec (key_of w) k) as [E|E].
      * split; [intros [= <-]; exists [], visitors; split; [reflexivity|]; split; [exact E|intros u []]|].
        intros ([|x before] & after & X & K & N); cbn in X; injection X as -> ->; [reflexivity|]. destruct (N x (or_introl eq_refl) E).
      * rewrite IH. split.
        -- intros (before & after & -> & K & N). exists (w :: before), after. split; [reflexivity|]. split; [exact K|]. intros u [<-|I]; [exact E|apply N, I].
        -- intros ([|x before] & after & X & K & N); cbn in X; injection X as -> ->; [contradiction|]. exists before, after. split; [reflexivity|]. split; [exact K|]. intros u I. apply N. right. exact I.
  - unfold agg_keys. rewrite BaseProofs.In_sof, in_map_iff. induction visitors as [|w visitors IH]; cbn [agg_get].
    + split; [intros _ (x & _ & [])|reflexivity].
    + destruct (BaseProofs.eqb_spec (key_of w) k) as [E|E].
      * split; [discriminate|]. intros N. destruct N. exists w. split; [exact E|left; reflexivity].
      * rewrite IH. split; intros N (x & X & I); apply N; exists x; split; [exact X|destruct I as [<-|I]; [contradiction|exact I]|exact X|right; exact I].
Qed.
Print Assumptions C67_aggregated_get.
Example C67_get : agg_get (fun v => v / 10) [12; 25; 27; 31] 2 = Some 25 /\ agg_keys (fun v => v / 10) [12; 25; 27; 31] = [1; 2; 3] /\ agg_get (fun v => v / 10) [12; 25; 27; 31] 4 = None.
Proof. vm_compute. auto. Qed.
Example C67_nontrivial :
  agg_calls [1; 2] [10; 20] = [(1, 10); (2, 10); (1, 20); (2, 20)].
Proof. vm_compute. reflexivity. Qed.
