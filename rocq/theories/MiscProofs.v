(** Proofs about property maps, aggregated visitors, closed operators and colors. *)
From Coq Require Import ZArith QArith Qabs Qminmax Lqa.
From Verif Require Import Base BaseProofs Misc MiscSpec.

(** ** Property maps *)
Section PMap.
  Context {K V : Type} `{EqDec K}.

  Definition view_as (p : assoc_pmap K V) (default : V) (hist : list (K * V)) : Prop :=
    pm_default p = default /\
    forall k, (match dget (pm_dict p) k with Some v => v | None => pm_default p end)
              = last_write default hist k.

  Lemma pm_run_reads ops p default hist : view_as p default hist ->
    snd (pm_run p ops) = reads default hist ops.
  Proof.
    revert p hist. induction ops as [|[k|k v] ops IH]; intros p hist (D & R); cbn; [reflexivity| |].
    - unfold pm_get. assert (Rk := R k). destruct (dget (pm_dict p) k) as [v|] eqn:E.
      + specialize (IH p hist (conj D R)). destruct (pm_run p ops). cbn in *. congruence.
      + set (p1 := Assoc _ _).
        assert (V1 : view_as p1 default hist).
        { split; [exact D|]. intros k'. cbn. rewrite dget_dset.
          destruct (eqb_spec k' k) as [->|N]; [exact Rk|apply R]. }
        specialize (IH p1 hist V1). destruct (pm_run p1 ops). cbn in *. congruence.
    - apply IH. split; [exact D|]. intros k'. cbn. rewrite dget_dset.
      destruct (eqb_spec k' k) as [->|N]; [reflexivity|apply R].
  Qed.

  Lemma pm_reads (default : V) (ops : list (pm_op K V)) : snd (pm_run (pm_new default) ops) = reads default [] ops.
  Proof. apply pm_run_reads. split; [reflexivity|]. intros k. reflexivity. Qed.
End PMap.

(** ** Aggregated visitors *)
Lemma agg_projection {Vis Ev} `{EqDec Vis} (visitors : list Vis) (evs : list Ev) v :
  NoDup visitors -> In v visitors ->
  map snd (filter (fun c => eqb (fst c) v) (agg_calls visitors evs)) = evs.
Proof.
  intros ND I. unfold agg_calls. induction evs as [|ev evs IH]; cbn; [reflexivity|].
  rewrite filter_app, map_app, IH.
  assert (Q : forall l, NoDup l -> filter (fun c : Vis * Ev => eqb (fst c) v) (agg_call l ev) =
                        if mem v l then [(v, ev)] else []).
  { clear. induction l as [|x l IHl]; cbn; intros ND; [reflexivity|]. inversion ND; subst.
    unfold agg_call in *. rewrite (IHl ltac:(assumption)).
    destruct (eqb_spec x v) as [E|N]; cbn.
    - subst x. rewrite eqb_refl. cbn. destruct (mem_reflect v l); [contradiction|reflexivity].
    - destruct (eqb_spec v x); [congruence|]. reflexivity. }
  rewrite Q by exact ND. apply mem_spec in I. rewrite I. reflexivity.
Qed.

Lemma agg_order {Vis Ev} (visitors : list Vis) (ev : Ev) :
  agg_calls visitors [ev] = map (fun v => (v, ev)) visitors.
Proof. apply app_nil_r. Qed.

(** ** Closed operators *)
Lemma closed_absorbing a impl x : closed_op a impl a x = a /\ closed_op a impl x a = a.
Proof. unfold closed_op. rewrite Z.eqb_refl, orb_true_r. auto. Qed.

Lemma closed_plain a impl x y : x <> a -> y <> a -> closed_op a impl x y = impl x y.
Proof. intros X Y. unfold closed_op. apply Z.eqb_neq in X, Y. rewrite X, Y. reflexivity. Qed.

Lemma closed_comm a impl x y : (forall x y, impl x y = impl y x) ->
  closed_op a impl x y = closed_op a impl y x.
Proof. intros C. unfold closed_op. rewrite orb_comm, C. reflexivity. Qed.

Local Open Scope Z_scope.
Lemma closed_plus_mono a x x' y : 0 <= y -> x <= x' -> x + y <= a ->
  closed_plus a x y <= closed_plus a x' y.
Proof.
  intros. unfold closed_plus, closed_op.
  destruct (Z.eqb_spec x a), (Z.eqb_spec y a), (Z.eqb_spec x' a); cbn; lia.
Qed.
Local Close Scope Z_scope.

(** ** Colors *)
Local Open Scope Q_scope.

Lemma Qmin_pos l : 0 < l -> l < 1 -> 0 < Qmin l (1 - l).
Proof.
  intros A B. destruct (Q.min_spec l (1 - l)) as [[_ E]|[_ E]]; rewrite E; lra.
Qed.

Lemma hsv_roundtrip h s v : 0 <= s <= 1 -> 0 < v <= 1 ->
  let '(h', s', l') := hsv_to_hsl h s v in color_eq (hsl_to_hsv h' s' l') (h, s, v).
Proof.
  intros (S0 & S1) (V0 & V1). unfold hsv_to_hsl.
  set (l := v * (1 - s / 2)).
  assert (Hs : s / 2 == s * (1 # 2)) by (unfold Qdiv; reflexivity).
  assert (L0 : 0 < l).
  { unfold l. rewrite Hs. nra. }
  assert (L1 : l <= v) by (unfold l; rewrite Hs; nra).
  assert (Hl0 : Qeq_bool l 0 = false).
  { destruct (Qeq_bool l 0) eqn:E; [|reflexivity]. apply Qeq_bool_iff in E. lra. }
  rewrite Hl0. cbn [orb].
  destruct (Qeq_bool l 1) eqn:E1.
  - apply Qeq_bool_iff in E1.
    assert (Ev : v == 1) by lra.
    assert (Es : s == 0) by (unfold l in E1; rewrite Hs in E1; nra).
    unfold hsl_to_hsv, color_eq. cbn [fst snd]. split; [reflexivity|].
    assert (Eval : l + 0 * Qmin l (1 - l) == 1) by lra.
    destruct (Qeq_bool (l + 0 * Qmin l (1 - l)) 0) eqn:E2.
    + apply Qeq_bool_iff in E2. lra.
    + split; [|lra]. rewrite Eval. unfold Qdiv. change (/ 1) with 1. lra.
  - assert (N1 : ~ l == 1) by (intros C; apply Qeq_bool_iff in C; congruence).
    assert (Lt1 : l < 1).
    { apply Qnot_le_lt. intros C. apply N1. lra. }
    assert (M := Qmin_pos l L0 Lt1).
    unfold hsl_to_hsv, color_eq. cbn [fst snd]. split; [reflexivity|].
    assert (Eval : l + (v - l) / Qmin l (1 - l) * Qmin l (1 - l) == v).
    { field. lra. }
    destruct (Qeq_bool (l + (v - l) / Qmin l (1 - l) * Qmin l (1 - l)) 0) eqn:E2.
    + apply Qeq_bool_iff in E2. lra.
    + split; [|exact Eval]. rewrite Eval. unfold l. field. lra.
Qed.

Lemma hsl_roundtrip h s l : 0 <= s <= 1 -> 0 < l -> l < 1 ->
  let '(h', s', v') := hsl_to_hsv h s l in color_eq (hsv_to_hsl h' s' v') (h, s, l).
Proof.
  intros (S0 & S1) L0 L1. unfold hsl_to_hsv. assert (M := Qmin_pos l L0 L1).
  set (m := Qmin l (1 - l)) in *. set (v := l + s * m).
  assert (V0 : 0 < v) by (unfold v; nra).
  assert (Hv0 : Qeq_bool v 0 = false).
  { destruct (Qeq_bool v 0) eqn:E; [|reflexivity]. apply Qeq_bool_iff in E. lra. }
  rewrite Hv0. unfold hsv_to_hsl, color_eq. cbn [fst snd].
  set (l' := v * (1 - 2 * (1 - l / v) / 2)).
  assert (El : l' == l) by (unfold l'; field; lra).
  assert (B0 : Qeq_bool l' 0 = false).
  { destruct (Qeq_bool l' 0) eqn:E; [|reflexivity]. apply Qeq_bool_iff in E. lra. }
  assert (B1 : Qeq_bool l' 1 = false).
  { destruct (Qeq_bool l' 1) eqn:E; [|reflexivity]. apply Qeq_bool_iff in E. lra. }
  rewrite B0, B1. cbn [orb]. split; [reflexivity|]. split; [|exact El].
  assert (Em : Qmin l' (1 - l') == m).
  { unfold m. apply Q.min_compat; lra. }
  rewrite Em, El. unfold v. field. lra.
Qed.

Lemma abs_min l : 1 - Qabs (2 * l - 1) == 2 * Qmin l (1 - l).
Proof.
  destruct (Q.min_spec l (1 - l)) as [[H E]|[H E]]; rewrite E.
  - rewrite Qabs_neg by lra. lra.
  - rewrite Qabs_pos by lra. lra.
Qed.
Lemma hsl_same h s l : 0 <= s <= 1 -> 0 <= l <= 1 -> same_color (hsl_to_hsv h s l) (h, s, l).
Proof.
  intros S L. unfold hsl_to_hsv, same_color, hsv_max, hsl_max, hsv_chroma, hsl_chroma. rewrite abs_min. split; [reflexivity|].
  set (m := Qmin l (1 - l)). assert (M : 0 <= m) by (unfold m; destruct (Q.min_spec l (1 - l)) as [[H E]|[H E]]; rewrite E; lra).
  split; [unfold Qdiv; change (/ 2) with (1#2); lra|].
  destruct (Qeq_bool (l + s * m) 0) eqn:E.
  - apply Qeq_bool_iff in E. assert (s * m == 0) by nra. lra.
  - assert (N : ~ l + s * m == 0) by (intros C; apply Qeq_bool_iff in C; congruence). field_simplify; [lra|exact N].
Qed.
Lemma hsv_same h s v : 0 <= s <= 1 -> 0 <= v <= 1 -> same_color (h, s, v) (hsv_to_hsl h s v).
Proof.
  intros S V. unfold hsv_to_hsl, same_color, hsv_max, hsl_max, hsv_chroma, hsl_chroma. rewrite abs_min. split; [reflexivity|].
  set (l := v * (1 - s / 2)). assert (El : l == v - v * s * (1#2)) by (unfold l, Qdiv; change (/ 2) with (1#2); ring).
  destruct (Qeq_bool l 0) eqn:E0.
  { apply Qeq_bool_iff in E0. assert (v * s == 0) by nra. cbn [orb]. unfold Qdiv. change (/ 2) with (1#2). split; lra. }
  destruct (Qeq_bool l 1) eqn:E1.
  { apply Qeq_bool_iff in E1. assert (v * s == 0) by nra. cbn [orb]. unfold Qdiv. change (/ 2) with (1#2). split; lra. }
  assert (N0 : ~ l == 0) by (intros C; apply Qeq_bool_iff in C; congruence).
  assert (N1 : ~ l == 1) by (intros C; apply Qeq_bool_iff in C; congruence).
  cbn [orb]. set (m := Qmin l (1 - l)). assert (M : ~ m == 0) by (unfold m; destruct (Q.min_spec l (1 - l)) as [[H E]|[H E]]; rewrite E; lra).
  assert (X : 2 * m * ((v - l) / m) == 2 * (v - l)) by (field; exact M).
  rewrite X. unfold Qdiv. change (/ 2) with (1#2). split; lra.
Qed.
Lemma hsl_black h s : color_eq (hsl_to_hsv h s 0) (h, 0, 0).
Proof.
  unfold hsl_to_hsv, color_eq. cbn [fst snd]. assert (M : Qmin 0 (1 - 0) == 0) by (destruct (Q.min_spec 0 (1 - 0)) as [[H E]|[H E]]; rewrite E; lra).
  assert (V : 0 + s * Qmin 0 (1 - 0) == 0) by (rewrite M; ring). rewrite (proj2 (Qeq_bool_iff _ _) V). split; [reflexivity|]. split; [reflexivity|exact V].
Qed.
Lemma hsl_white h s : color_eq (hsl_to_hsv h s 1) (h, 0, 1).
Proof.
  unfold hsl_to_hsv, color_eq. cbn [fst snd]. assert (M : Qmin 1 (1 - 1) == 0) by (destruct (Q.min_spec 1 (1 - 1)) as [[H E]|[H E]]; rewrite E; lra).
  assert (V : 1 + s * Qmin 1 (1 - 1) == 1) by (rewrite M; ring). split; [reflexivity|].
  destruct (Qeq_bool _ 0) eqn:Z; [apply Qeq_bool_iff in Z; rewrite V in Z; discriminate|]. split; [|exact V]. rewrite V. reflexivity.
Qed.
Lemma hsv_black h s : color_eq (hsv_to_hsl h s 0) (h, 0, 0).
Proof.
  unfold hsv_to_hsl, color_eq. cbn [fst snd]. assert (V : 0 * (1 - s / 2) == 0) by ring. rewrite (proj2 (Qeq_bool_iff _ _) V). split; [reflexivity|]. split; [reflexivity|exact V].
Qed.
