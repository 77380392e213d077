(** Lemmas on the safe expressions. *)
From Coq Require Import String.
From Verif Require Import Str BaseProofs Thompson ThompsonSpec ThompsonProofs ThompsonProofs3 ThompsonProofs4 Regexp RegexpSpec.
Open Scope string_scope.
Open Scope nat_scope.
Open Scope list_scope.

Definition sub (X Y : lang char) : Prop := forall w, X w -> Y w.
Definition closed (C : lang char) : Prop := C [] /\ forall u v, C u -> C v -> C (u ++ v).
Lemma closed_eps : closed leps.
Proof. split; [reflexivity|]. intros u v -> ->. reflexivity. Qed.
Lemma closed_star (X : lang char) : closed (lstar X).
Proof. split; [exists 0; reflexivity|]. intros u v (n & Hu) (m & Hv). exists (n + m). apply lpow_app; assumption. Qed.
Lemma sub_cat X Y C : closed C -> sub X C -> sub Y C -> sub (lcat X Y) C.
Proof. intros [_ K] HX HY w (u & v & -> & Hu & Hv). apply K; auto. Qed.
Lemma sub_alt X Y C : sub X C -> sub Y C -> sub (lalt X Y) C.
Proof. intros HX HY w [H|H]; auto. Qed.
Lemma sub_star X C : closed C -> sub X C -> sub (lstar X) C.
Proof.
  intros [K0 K] HX w (n & H). revert w H. induction n as [|n IH]; intros w H; cbn [lpow] in H; [rewrite H; exact K0|].
  destruct H as (u & v & -> & Hu & Hv). apply K; auto.
Qed.
Lemma sub_opt q C : closed C -> sub (qQ q) C -> sub (qF q) C -> sub (qB q) C ->
  sub (qQ (q_opt q)) C /\ sub (qF (q_opt q)) C /\ sub (qB (q_opt q)) C.
Proof. intros K HQ HF HB. pose proof (sub_star _ _ K HB) as HS. cbn [q_opt qQ qF qB]. split; [|split]; apply sub_alt; trivial; repeat apply sub_cat; trivial. Qed.
Lemma star_nil (X : lang char) : lstar X [].
Proof. exists 0. reflexivity. Qed.
Lemma opt_L q C : closed C -> sub (qQ q) C -> sub (qF q) C -> sub (qB q) C -> qQ q [] -> qF q [] -> sub C (lopt (qL q)) ->
  forall w, qL (q_opt q) w <-> lopt (qL q) w.
Proof.
  intros K HQ HF HB Q0 F0 HC w. pose proof (sub_star _ _ K HB) as HS. cbn [q_opt qL]. split.
  - intros [H|H]; [right; exact H|]. apply HC. revert w H. apply sub_cat; trivial. apply sub_cat; trivial.
  - intros [H|H]; [|left; exact H]. cbv in H. subst w. right. exists [], []. split; [reflexivity|]. split; [exact Q0|]. exists [], []. split; [reflexivity|]. split; [apply star_nil|exact F0].
Qed.

Record good_quad (r : rexp) (D : lang char) (q : quad) : Prop := GQ {
  g_L : forall w, qL q w <-> D w; g_Q : qQ q []; g_F : qF q [];
  g_in : tidy_in r = true -> sub (qQ q) leps /\ sub (qB q) leps;
  g_out : tidy_out r = true -> sub (qF q) leps /\ sub (qB q) leps;
  g_loops : loops r = true -> exists C, closed C /\ sub (qQ q) C /\ sub (qF q) C /\ sub (qB q) C /\ sub C (lopt (qL q)) }.

Lemma sub_lno C : sub lno C.
Proof. intros w []. Qed.
Lemma sub_refl C : sub C C.
Proof. intros w H. exact H. Qed.
#[local] Hint Resolve sub_lno sub_refl : core.

Lemma opt_good x D q : good_quad x D q -> tidy_in x && tidy_out x || loops x = true ->
  (forall w, qL (q_opt q) w <-> lopt D w) /\ qQ (q_opt q) [] /\ qF (q_opt q) [] /\
  (tidy_in x = true -> sub (qQ (q_opt q)) leps /\ sub (qB (q_opt q)) leps) /\
  (tidy_out x = true -> sub (qF (q_opt q)) leps /\ sub (qB (q_opt q)) leps) /\
  (loops x = true -> exists C, closed C /\ sub (qQ (q_opt q)) C /\ sub (qF (q_opt q)) C /\ sub (qB (q_opt q)) C /\ sub C (lopt (qL (q_opt q)))).
Proof.
  intros [HL Q0 F0 Hin Hout Hl] T.
  assert (X : exists C, closed C /\ sub (qQ q) C /\ sub (qF q) C /\ sub (qB q) C /\ sub C (lopt (qL q))).
  { destruct (loops x); [apply Hl; reflexivity|]. rewrite orb_false_r in T. apply andb_true_iff in T. destruct T as [T1 T2].
    exists leps. destruct (Hin T1) as [? ?], (Hout T2) as [? ?]. split; [apply closed_eps|]. repeat (split; [assumption|]). intros w HH. left. exact HH. }
  destruct X as (C & K & HQ & HF & HB & HC). pose proof (opt_L q C K HQ HF HB Q0 F0 HC) as HL'.
  split; [intros w; rewrite HL'; unfold lopt, lalt; rewrite HL; reflexivity|].
  split; [left; exact Q0|]. split; [left; exact F0|]. pose proof closed_eps as K0.
  split; [intros Ti; destruct (Hin Ti) as [Z1 Z2]; pose proof (sub_star _ _ K0 Z2); cbn [q_opt qQ qB]; split; apply sub_alt; trivial; repeat apply sub_cat; trivial|].
  split; [intros Ti; destruct (Hout Ti) as [Z1 Z2]; pose proof (sub_star _ _ K0 Z2); cbn [q_opt qF qB]; split; apply sub_alt; trivial; repeat apply sub_cat; trivial|].
  intros _. exists C. split; [exact K|]. destruct (sub_opt q C K HQ HF HB) as (Z1 & Z2 & Z3). repeat (split; [assumption|]).
  intros w H. apply HC in H. destruct H as [H|H]; [left; exact H|right; left; exact H].
Qed.

Lemma lrange_ext (X Y : lang char) m n : (forall w, X w <-> Y w) -> forall w, lrange X m n w <-> lrange Y m n w.
Proof. intros E w. unfold lrange. split; intros (k & H1 & H2 & H3); exists k; repeat (split; [assumption|]); eapply lpow_ext; try exact H3; intros; apply E; assumption. Qed.
Lemma lcat_ext (X Y X' Y' : lang char) : (forall w, X w <-> X' w) -> (forall w, Y w <-> Y' w) -> forall w, lcat X Y w <-> lcat X' Y' w.
Proof. intros E1 E2 w. split; intros (u & v & -> & H1 & H2); exists u, v; (split; [reflexivity|]); split; (apply E1 || apply E2); assumption. Qed.

Lemma range01 (X : lang char) w : lrange X 0 (Some 1) w <-> lopt X w.
Proof.
  split.
  - intros ([|[|k]] & _ & H & P); [left; exact P| |lia]. right. destruct P as (u & v & -> & Hu & ->). rewrite app_nil_r. exact Hu.
  - intros [H|H]; [exists 0; repeat split; [lia|lia|exact H]|]. exists 1. split; [lia|]. split; [lia|]. exists w, []. rewrite app_nil_r. repeat split. exact H.
Qed.
Lemma range0inf (X : lang char) w : lrange X 0 None w <-> lstar X w.
Proof. split; [intros (k & _ & _ & P); exists k; exact P|intros (k & P); exists k; repeat split; [lia|exact P]]. Qed.
Lemma range1inf (X : lang char) w : lrange X 1 None w <-> lplus X w.
Proof. split; [intros (k & H & _ & P); exists k; split; [exact H|exact P]|intros (k & H & P); exists k; repeat split; [exact H|exact P]]. Qed.
Lemma range00 (X : lang char) w : lrange X 0 (Some 0) w <-> leps w.
Proof. split; [intros (k & _ & H & P); assert (k = 0) by lia; subst k; exact P|intros H; exists 0; repeat split; [lia|lia|exact H]]. Qed.

Lemma star_good r x D q : (r = Star x \/ tidy_in r = false /\ tidy_out r = false) -> good_quad x D q -> good_quad r (lstar D) (q_star q).
Proof.
  intros HR [HL _ _ _ _ _].
  assert (T : tidy_in r = false /\ tidy_out r = false) by (destruct HR as [->|HR]; [split; reflexivity|exact HR]). destruct T as [T1 T2].
  constructor; cbn [q_star qL qQ qF qB]; try (apply star_nil).
  - apply lstar_ext, HL.
  - rewrite T1; discriminate.
  - rewrite T2; discriminate.
  - intros _. exists (lstar (qL q)). split; [apply closed_star|]. repeat (split; [apply sub_refl|]). intros w H. right. exact H.
Qed.
Lemma plus_good r x D q : (r = Plus x \/ tidy_in r = false /\ tidy_out r = false) -> good_quad x D q -> good_quad r (lplus D) (q_plus q).
Proof.
  intros HR [HL _ _ _ _ _].
  assert (T : tidy_in r = false /\ tidy_out r = false) by (destruct HR as [->|HR]; [split; reflexivity|exact HR]). destruct T as [T1 T2].
  constructor; cbn [q_plus qL qQ qF qB]; try (apply star_nil).
  - apply lplus_ext, HL.
  - rewrite T1; discriminate.
  - rewrite T2; discriminate.
  - intros _. exists (lstar (qL q)). split; [apply closed_star|]. repeat (split; [apply sub_refl|]). intros w H. rewrite (lopt_plus (qL q)). exact H.
Qed.

Lemma safe_denote alphabet r : well_formed alphabet r -> safe r = true -> exists q, actual alphabet r = Some q /\ good_quad r (denote alphabet r) q.
Proof.
  assert (SY : forall r P, good_quad (Chr r) (lsym P) (q_sym P)).
  { intros c P. constructor; cbn [q_sym qL qQ qF qB]; try reflexivity; auto. discriminate. }
  induction r as [c|neg l|c|a IHa b IHb|a IHa b IHb|x IH|x IH|x IH|x IH b|x IH]; intros W SF; cbn [actual well_formed denote safe] in *.
  1,2,3: eexists; (split; [reflexivity|]); constructor; cbn [q_sym qL qQ qF qB]; try reflexivity; auto; discriminate.
  - apply andb_true_iff in SF. destruct SF as [SF1 SF2]. destruct W as (Wa & Wb & _). destruct (IHa Wa SF1) as (qa & -> & Ga), (IHb Wb SF2) as (qb & -> & Gb).
    eexists; split; [reflexivity|]. constructor; cbn [qL qQ qF qB].
    + apply lcat_ext; [apply (g_L _ _ _ Ga)|apply (g_L _ _ _ Gb)].
    + apply (g_Q _ _ _ Ga).
    + apply (g_F _ _ _ Gb).
    + intros T. destruct (g_in _ _ _ Ga T). auto.
    + intros T. destruct (g_out _ _ _ Gb T). auto.
    + discriminate.
  - apply andb_true_iff in SF. destruct SF as [SF1 SF2]. destruct W as (Wa & Wb & _). destruct (IHa Wa SF1) as (qa & -> & Ga), (IHb Wb SF2) as (qb & -> & Gb).
    eexists; split; [reflexivity|]. constructor; cbn [qL qQ qF qB]; try reflexivity; auto.
    + intros w. unfold lalt. rewrite (g_L _ _ _ Ga), (g_L _ _ _ Gb). reflexivity.
    + discriminate.
  - destruct (IH (proj1 W) SF) as (q & -> & G). eexists; split; [reflexivity|]. eapply star_good; [left; reflexivity|exact G].
  - destruct (IH (proj1 W) SF) as (q & -> & G). eexists; split; [reflexivity|]. eapply plus_good; [left; reflexivity|exact G].
  - apply andb_true_iff in SF. destruct SF as [SF T]. destruct (IH (proj1 W) SF) as (q & -> & G). eexists; split; [reflexivity|].
    destruct (opt_good x _ q G T) as (H1 & H2 & H3 & H4 & H5 & H6). constructor; assumption.
  - apply andb_true_iff in SF. destruct SF as [SF T]. destruct W as (W & _ & OK). destruct (IH W SF) as (q & -> & G).
    assert (LE : match bmax b with Some n => bmin b <= n | None => True end) by (destruct b; cbn in *; [lia|trivial|apply OK]).
    pose proof (lrange_ext (qL q) (denote alphabet x) (bmin b) (bmax b) (g_L _ _ _ G)) as EL.
    destruct (bmin b) as [|[|m]] eqn:Em, (bmax b) as [[|[|n]]|] eqn:En; cbn [q_rep] in *; try lia.
    + rewrite T. eexists; split; [reflexivity|]. constructor; cbn [qL qQ qF qB loops tidy_in tidy_out]; rewrite ?Em, ?En; try reflexivity; auto; [|discriminate].
      intros w. rewrite range00. reflexivity.
    + eexists; split; [reflexivity|]. destruct (opt_good x _ q G T) as (H1 & H2 & H3 & H4 & H5 & H6).
      constructor; cbn [loops tidy_in tidy_out]; rewrite ?Em, ?En; try assumption; [|discriminate]. intros w. rewrite range01. apply H1.
    + apply andb_true_iff in T. destruct T as [-> T]. eexists; split; [reflexivity|]. destruct (g_out _ _ _ G T) as [T1 T2].
      constructor; cbn [qL qQ qF qB loops tidy_in tidy_out]; rewrite ?Em, ?En; try reflexivity; auto; try discriminate.
      * intros w. rewrite <- EL. split; [|right; assumption]. intros [H|H]; [|exact H]. apply T1 in H. exists 0. repeat split; [lia|lia|exact H].
      * apply (g_F _ _ _ G).
    + eexists; split; [reflexivity|]. destruct (star_good (Rep x b) x (denote alphabet x) q) with (2 := G) as [H1 H2 H3 H4 H5 H6]; [right; cbn [tidy_in tidy_out]; rewrite Em, En; split; reflexivity|].
      constructor; try assumption. intros w. rewrite range0inf. apply H1.
    + eexists; split; [reflexivity|]. constructor; cbn [qL qQ qF qB loops tidy_in tidy_out Nat.eqb]; rewrite ?Em, ?En; try discriminate.
      * exact EL.
      * apply (g_Q _ _ _ G).
      * apply (g_F _ _ _ G).
      * apply (g_in _ _ _ G).
      * apply (g_out _ _ _ G).
    + eexists; split; [reflexivity|]. constructor; cbn [qL qQ qF qB loops tidy_in tidy_out Nat.eqb]; rewrite ?Em, ?En; try discriminate.
      * exact EL.
      * apply (g_Q _ _ _ G).
      * apply (g_F _ _ _ G).
      * intros T'. destruct (g_in _ _ _ G T'). auto.
      * intros T'. destruct (g_out _ _ _ G T'). auto.
    + eexists; split; [reflexivity|]. destruct (plus_good (Rep x b) x (denote alphabet x) q) with (2 := G) as [H1 H2 H3 H4 H5 H6]; [right; cbn [tidy_in tidy_out]; rewrite Em, En; split; reflexivity|].
      constructor; try assumption. intros w. rewrite range1inf. apply H1.
    + eexists; split; [reflexivity|]. constructor; cbn [qL qQ qF qB loops tidy_in tidy_out Nat.eqb]; rewrite ?Em, ?En; try discriminate.
      * exact EL.
      * apply (g_Q _ _ _ G).
      * apply (g_F _ _ _ G).
      * intros T'. destruct (g_in _ _ _ G T'). auto.
      * intros T'. destruct (g_out _ _ _ G T'). auto.
    + eexists; split; [reflexivity|]. constructor; cbn [qL qQ qF qB loops tidy_in tidy_out Nat.eqb]; rewrite ?Em, ?En; try discriminate.
      * exact EL.
      * apply (g_Q _ _ _ G).
      * apply star_nil.
      * intros T'. destruct (g_in _ _ _ G T'). auto.
  - destruct (IH W SF) as (q & -> & [H1 H2 H3 H4 H5 H6]). eexists; split; [reflexivity|]. constructor; assumption.
Qed.
