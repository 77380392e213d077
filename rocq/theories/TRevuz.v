(** Theorems C48 and C69 on revuz_minimize.py. *)
From Coq Require Import ZArith.
From Verif Require Import Graph GraphProofs Automaton AutomatonSpec AutomatonProofs AutomatonProofs2 Heap Revuz RevuzSpec RevuzProofs RevuzProofs2 RevuzProofs3 MinSpec MinProofs Base BaseProofs.

(** C69 on any finite acyclic graph: [arc] is the relation described by its methods in_edges and out_degree. *)
Theorem C69_revuz_height (D : Type) (V : list nat) (out_degree : nat -> nat) (in_edges : nat -> list (edge D)) (arc : nat -> nat -> Prop) ord m0 fuel :
  NoDup V -> (forall v u, In v V -> (exists e, In e (in_edges v) /\ source e = u) <-> arc u v) -> (forall v, In v V -> (out_degree v = 0 <-> leaf arc v)) ->
  (forall u v, arc u v -> In u V /\ In v V) -> acyclic arc -> valid_order ord -> length V <= fuel ->
  exists r m, revuz_height V out_degree in_edges fuel ord [] m0 = Some (r, m) /\
    (forall v, In v V -> exists n, dget m v = Some n /\ height_is arc v n /\ (Z.of_nat n <= r)%Z) /\
    (forall v, ~ In v V -> dget m v = dget m0 v) /\
    (r = (-1)%Z /\ V = [] \/ exists v n, In v V /\ height_is arc v n /\ r = Z.of_nat n).
Proof.
  intros N H1 H2 H3 H4 O F. destruct (height_spec V out_degree in_edges arc H1 H2 H3 H4 ord m0 fuel O N F) as (r & m & E & P1 & P2 & P3).
  exists r, m. split; [exact E|]. split; [exact P1|]. split; [exact P2|]. destruct P3 as [[Q1 Q2]|(v & Q1 & Q2)]; [auto|right]. destruct (P1 v Q1) as (n & G & HN & _). exists v, n. rewrite G in Q2. cbn in Q2. split; [exact Q1|]. split; [exact HN|congruence].
Qed.
Print Assumptions C69_revuz_height.

Section A.
  Context {A : Type} {EA : EqDec A}.
  Lemma edges_iff (g : iaut A) s : iarep g s -> forall e, In e (IA_edges g) <-> In e (aa_T s).
  Proof. intros R e. pose proof (obs_edges _ _ (proj1 R)) as P. split; apply Permutation_in; [exact P|symmetry; exact P]. Qed.
  Lemma arc_iff (g : iaut A) s u v : iarep g s -> aut_arc (IA_edges g) u v <-> aut_arc (aa_T s) u v.
  Proof. intros R. split; intros [a I]; exists a; apply (edges_iff g s R), I. Qed.
  Lemma out0 (g : iaut A) s v : iarep g s -> length (IA_out_edges g v) = 0 <-> leaf (aut_arc (IA_edges g)) v.
  Proof.
    intros R. split.
    - intros L u [a I]. apply (edges_iff g s R) in I. assert (J : In (Edge v u a) (IA_out_edges g v)) by (apply (In_obs_out g s); auto). destruct (IA_out_edges g v); [destruct J|discriminate].
    - intros L. destruct (IA_out_edges g v) as [|[p r a] l] eqn:E; [reflexivity|]. destruct (L r). exists a. assert (J : In (Edge p r a) (IA_out_edges g v)) by (rewrite E; left; reflexivity). apply (In_obs_out g s v _ R) in J. destruct J as [J1 J2]. cbn in J1. subst p. apply (edges_iff g s R), J2.
  Qed.
  Lemma in_arc (g : iaut A) s v u : iarep g s -> (exists e, In e (IA_in_edges g v) /\ source e = u) <-> aut_arc (IA_edges g) u v.
  Proof.
    intros R. split.
    - intros ([p r a] & I & E). cbn in E. subst p. apply (In_obs_in g s v _ R) in I. cbn in I. destruct I as [-> I]. exists a. apply (edges_iff g s R), I.
    - intros [a I]. exists (Edge u v a). split; [|reflexivity]. apply (In_obs_in g s v _ R). split; [reflexivity|]. apply (edges_iff g s R), I.
  Qed.
  Lemma arc_in (g : iaut A) s u v : iarep g s -> aut_arc (IA_edges g) u v -> In u (IA_vertices g) /\ In v (IA_vertices g).
  Proof. intros R [a I]. apply (edges_iff g s R) in I. unfold IA_vertices. rewrite (obs_vertices _ _ (proj1 R)). apply (iarep_closed g s R _ _ _ I). Qed.
  Lemma heights_of (g : iaut A) s ord m0 fuel : iarep g s -> acyclic (aut_arc (IA_edges g)) -> valid_order ord -> length (IA_vertices g) <= fuel ->
    exists r m, revuz_height (IA_vertices g) (fun q => length (IA_out_edges g q)) (IA_in_edges g) fuel ord [] m0 = Some (r, m) /\
      (forall v, In v (IA_vertices g) -> exists n, dget m v = Some n /\ height_is (aut_arc (IA_edges g)) v n /\ (Z.of_nat n <= r)%Z) /\
      (forall v, ~ In v (IA_vertices g) -> dget m v = dget m0 v) /\
      (r = (-1)%Z /\ IA_vertices g = [] \/ exists v n, In v (IA_vertices g) /\ height_is (aut_arc (IA_edges g)) v n /\ r = Z.of_nat n).
  Proof.
    intros R AC O F. apply C69_revuz_height; auto.
    - unfold IA_vertices. rewrite (obs_vertices _ _ (proj1 R)). apply (iarep_nodup g s R).
    - intros v u _. apply (in_arc g s v u R).
    - intros v _. apply (out0 g s v R).
    - intros u v. apply (arc_in g s u v R).
  Qed.

  (** C69 on an IncidenceAutomaton built by a disciplined program *)
  Theorem C69_incidence_automaton n (ops : list (aop A)) ord m0 fuel : disciplined (aa_init n) ops -> valid_order ord ->
    let g := fst (runs IA_call (IA_init n) ops) in
    acyclic (aut_arc (IA_edges g)) -> length (IA_vertices g) <= fuel ->
    exists r m, revuz_height (IA_vertices g) (fun q => length (IA_out_edges g q)) (IA_in_edges g) fuel ord [] m0 = Some (r, m) /\
      (forall v, In v (IA_vertices g) -> exists n, dget m v = Some n /\ height_is (aut_arc (IA_edges g)) v n /\ (Z.of_nat n <= r)%Z) /\
      (forall v, ~ In v (IA_vertices g) -> dget m v = dget m0 v) /\
      (r = (-1)%Z /\ IA_vertices g = [] \/ exists v n, In v (IA_vertices g) /\ height_is (aut_arc (IA_edges g)) v n /\ r = Z.of_nat n).
  Proof.
    intros D O g AC F. destruct (iarep_runs ops _ _ (iarep_init n) D) as [R _]. fold g in R. apply (heights_of g _ ord m0 fuel R AC O F).
  Qed.

  (** ** revuz_minimize *)
  Lemma right_nil (T : list (edge A)) f q : right T f q [] <-> f q = true.
  Proof. split; [intros (r & P & F); inversion P; subst; exact F|intros F; exists q; split; [constructor|exact F]]. Qed.
  Lemma right_cons (T : list (edge A)) f q r a w : (forall r', In (Edge q r' a) T -> r' = r) -> In (Edge q r a) T -> right T f q (a :: w) <-> right T f r w.
  Proof.
    intros U I. split.
    - intros (t & P & F). inversion P as [|? ? r' ? ? J P']; subst. rewrite (U r' J) in P'. exists t. auto.
    - intros (t & P & F). exists t. split; [econstructor; eassumption|exact F].
  Qed.
  Lemma readable_cons (T : list (edge A)) q r a w : (forall r', In (Edge q r' a) T -> r' = r) -> In (Edge q r a) T -> readable T q (a :: w) <-> readable T r w.
  Proof.
    intros U I. split.
    - intros (t & P). inversion P as [|? ? r' ? ? J P']; subst. rewrite (U r' J) in P'. exists t. auto.
    - intros (t & P). exists t. econstructor; eassumption.
  Qed.
  Lemma words_uniq ht s0 h (g : iaut A) s : iarep g s -> inv ht s0 h [] s -> forall n x y, ht x < n -> In x (aa_V s) -> In y (aa_V s) -> same_words s s x y -> x = y.
  Proof.
    intros R I. pose proof (iarep_det g s R) as DET. pose proof (iarep_closed g s R) as CL.
    induction n as [|n IH]; intros x y L Vx Vy SW; [lia|].
    assert (NX : forall p q a r r', same_words s s p q -> In (Edge p r a) (aa_T s) -> In (Edge q r' a) (aa_T s) -> same_words s s r r').
    { intros p q a r r' S1 J J' w. destruct (S1 (a :: w)) as [S2 S3]. rewrite (right_cons _ _ p r), (right_cons _ _ q r') in S2 by (eauto using DET). rewrite (readable_cons _ p r), (readable_cons _ q r') in S3 by (eauto using DET). tauto. }
    assert (ST : forall p q a r, same_words s s p q -> In (Edge p r a) (aa_T s) -> exists r', In (Edge q r' a) (aa_T s)).
    { intros p q a r S1 J. destruct (S1 [a]) as [_ [S2 _]]. destruct S2 as [t P]; [exists r; econstructor; [exact J|constructor]|]. inversion P as [|? ? r' ? ? J' P']; subst. exists r'. exact J'. }
    apply (i_uniq _ _ _ _ _ I x y Vx Vy).
    - apply (level_empty ht s0 h s I x Vx). intros p r a J. apply (CL _ _ _ J).
    - split.
      + destruct (SW []) as [F _]. rewrite !right_nil in F. destruct (aa_final s x), (aa_final s y); try reflexivity; [symmetry|]; tauto.
      + intros a r. split; intros J.
        * destruct (ST x y a r SW J) as [r' J']. assert (r = r') as <-; [|exact J']. apply IH; [pose proof (i_down _ _ _ _ _ I _ _ _ J); lia|apply (CL _ _ _ J)|apply (CL _ _ _ J')|apply (NX x y a); assumption].
        * destruct (ST y x a r (same_sym _ _ _ _ SW) J) as [r' J']. assert (r' = r) as <-; [|exact J']. apply IH; [pose proof (i_down _ _ _ _ _ I _ _ _ J'); lia|apply (CL _ _ _ J')|apply (CL _ _ _ J)|apply (NX x y a); assumption].
  Qed.
  Lemma path_app (T : list (edge A)) q w r w' t : path T q w r -> path T r w' t -> path T q (w ++ w') t.
  Proof. induction 1; cbn; [auto|]. intros. econstructor; eauto. Qed.
  Lemma path_split (T : list (edge A)) w w' : forall q t, path T q (w ++ w') t -> exists r, path T q w r /\ path T r w' t.
  Proof. induction w as [|a w IH]; intros q t P; cbn in P; [exists q; split; [constructor|exact P]|]. inversion P as [|? ? x ? ? I P']; subst. destruct (IH _ _ P') as (r & P1 & P2). exists r. split; [econstructor; eassumption|exact P2]. Qed.

  Lemma right_rep (g : iaut A) s q w : iarep g s -> accepted g q w <-> right (aa_T s) (aa_final s) q w.
  Proof.
    intros R. assert (HF : forall q, A_is_final (ia_base g) q = aa_final s q) by apply R.
    split; intros (r & P & F); exists r; (split; [revert P; apply path_perm; intros e; rewrite (edges_iff g s R); tauto|]); rewrite <- ?HF in *; rewrite ?HF in *; auto.
  Qed.
  Lemma readable_rep (g : iaut A) s q w : iarep g s -> readable (IA_edges g) q w <-> readable (aa_T s) q w.
  Proof. intros R. split; intros (r & P); exists r; revert P; apply path_perm; intros e; rewrite (edges_iff g s R); tauto. Qed.

  Lemma upath_first arc k v l : upath arc k v l -> leaf arc l -> match k with 0 => v = l | S k' => exists u, arc v u /\ upath arc k' u l end.
  Proof. intros P _. inversion P; subst; [reflexivity|eauto]. Qed.

  (** C48. Every remaining state accepts the words it accepted; a removed state has a smaller remaining equivalent; two remaining states differ by an accepted or by a readable word, hence by an accepted
      word when every leaf is final. The language of the automaton is preserved when no state smaller than the initial one is equivalent to it. *)
  Theorem C48_revuz_minimize_partial n (ops : list (aop A)) fuel ord ord_v : disciplined (aa_init n) ops -> valid_order ord -> valid_order ord_v ->
    let g := fst (runs IA_call (IA_init n) ops) in
    acyclic (aut_arc (IA_edges g)) -> length (IA_vertices g) <= fuel ->
    exists g' h, revuz_minimize fuel ord ord_v [] g = Some (g', Ok h) /\ A_initial (ia_base g') = A_initial (ia_base g) /\ (forall q, In q (IA_vertices g') -> wf_dfa (ia_dfa g' q)) /\
      (forall q, In q (IA_vertices g') -> In q (IA_vertices g) /\ forall w, accepted g' q w <-> accepted g q w) /\
      (forall q, In q (IA_vertices g) -> ~ In q (IA_vertices g') -> exists q', In q' (IA_vertices g') /\ q' < q /\ equiv_states g q' q) /\
      (forall x y, In x (IA_vertices g') -> In y (IA_vertices g') -> equiv_states g x y -> x = y) /\
      ((forall q, In q (IA_vertices g) -> leaf (aut_arc (IA_edges g)) q -> A_is_final (ia_base g) q = true) ->
        forall x y, In x (IA_vertices g') -> In y (IA_vertices g') -> (forall w, accepted g' x w <-> accepted g' y w) -> x = y) /\
      ((forall i q, A_initial (ia_base g) = Some i -> In i (IA_vertices g) -> In q (IA_vertices g) -> q < i -> ~ forall w, accepted g q w <-> accepted g i w) ->
        forall w, A_accepts (ia_base g') w = A_accepts (ia_base g) w) /\
      ((h = (-1)%Z /\ IA_vertices g = []) \/ exists v k, In v (IA_vertices g) /\ height_is (aut_arc (IA_edges g)) v k /\ h = Z.of_nat k /\ forall u m, In u (IA_vertices g) -> height_is (aut_arc (IA_edges g)) u m -> m <= k) /\
      (forall i, A_initial (ia_base g) = Some i -> forall w, (In i (IA_vertices g') -> A_accepts (ia_base g') w = A_accepts (ia_base g) w) /\
        (~ In i (IA_vertices g') -> A_accepts (ia_base g') w = match w with [] => A_is_final (ia_base g) i | _ => false end)).
  Proof.
    intros D OE OV g AC F. destruct (iarep_runs ops _ _ (iarep_init n) D) as [R _]. fold g in R. set (s := fst (runs ia_step (aa_init n) ops)) in R. clearbody g s. clear D ops n.
    destruct (heights_of g s ord_v [] fuel R AC OV F) as (r & m & E & HT & _ & _). unfold revuz_minimize. rewrite E. clear E.
    pose (ht := height_of m). assert (EV : IA_vertices g = aa_V s) by apply (obs_vertices _ _ (proj1 R)).
    assert (HI : forall v, In v (aa_V s) -> height_is (aut_arc (IA_edges g)) v (ht v)).
    { intros v Vv. rewrite <- EV in Vv. destruct (HT v Vv) as (k & G & HK & _). unfold ht, height_of. rewrite G. exact HK. }
    assert (SHORT : forall v, In v (aa_V s) -> ht v < length (aa_V s)).
    { intros v Vv. destruct (HI v Vv) as [(l & _ & P) _]. rewrite <- EV in *. revert P Vv. apply path_short; [intros x y; apply (arc_in g s x y R)|exact AC]. }
    assert (I0 : inv ht s 0 (leaves_of (IA_vertices g) (fun q => length (IA_out_edges g q)) []) s).
    { split; try reflexivity; auto.
      - intros v _. apply same_refl.
      - intros p x a J. destruct (iarep_closed g s R _ _ _ J) as [Vp Vx]. destruct (HI x Vx) as [(l & L & P) _]. destruct (HI p Vp) as [_ MX]. apply (MX (S (ht x)) l L). econstructor; [exists a; apply (edges_iff g s R), J|exact P].
      - intros p k Vp Hp. destruct (HI p Vp) as [(l & L & P) MX]. rewrite Hp in *. apply upath_first in P; [|exact L]. destruct P as (u & [a J] & P). apply (edges_iff g s R) in J. destruct (iarep_closed g s R _ _ _ J) as [_ Vu]. exists u, a. split; [exact J|].
        destruct (HI u Vu) as [(l' & L' & P') MX']. pose proof (MX' k l L P). specialize (MX (S (ht u)) l' L'). assert (S (ht u) <= S k); [|lia]. apply MX. econstructor; [exists a; apply (edges_iff g s R), J|exact P'].
      - cbn [leaves_of]. rewrite EV. split; [apply NoDup_filter, (iarep_nodup g s R)|]. intros v. rewrite filter_In, Nat.eqb_eq, (out0 g s v R). split.
        + intros [Vv L]. split; [exact Vv|]. destruct (HI v Vv) as [(l & L' & P) _]. destruct (ht v) as [|k]; [reflexivity|]. apply upath_first in P; [|exact L']. destruct P as (u & J & _). destruct (L u J).
        + intros [Vv H0]. split; [exact Vv|]. destruct (HI v Vv) as [(l & L' & P) _]. rewrite H0 in P. apply upath_first in P; [|exact L']. subst l. exact L'.
      - intros; lia.
      - intros v Vv NV. contradiction. }
    destruct (minimize_loop_spec m ord ord_v s (length (aa_V s)) OE OV SHORT fuel 0 _ g s R I0) as (g' & s' & h' & E & R' & I' & _ & K); [rewrite <- EV; lia|].
    exists g', (Z.of_nat h' - 1)%Z. split; [exact E|]. fold ht in I', K.
    assert (EV' : IA_vertices g' = aa_V s') by apply (obs_vertices _ _ (proj1 R')).
    assert (Q0 : A_initial (ia_base g') = A_initial (ia_base g)).
    { assert (Q1 : A_initial (ia_base g) = aa_q0 s) by apply R. assert (Q2 : A_initial (ia_base g') = aa_q0 s') by apply R'. rewrite Q1, Q2. apply (i_q0 _ _ _ _ _ I'). }
    assert (ACC : forall q, In q (aa_V s') -> forall w, accepted g' q w <-> accepted g q w).
    { intros q Vq w. rewrite (right_rep g' s' q w R'), (right_rep g s q w R). symmetry. apply (i_same _ _ _ _ _ I' q Vq). }
    assert (MIN : forall x y, In x (aa_V s') -> In y (aa_V s') -> same_words s' s' x y -> x = y).
    { intros x y Vx Vy SW. apply (words_uniq ht s h' g' s' R' I' (S (ht x)) x y); [lia|assumption..]. }
    split; [exact Q0|]. split; [intros q Vq; apply (iarep_wf g' s' q R' Vq)|]. rewrite EV, EV'. split; [|split; [|split; [|split; [|split; [|split]]]]].
    - intros q Vq. split; [apply (i_V _ _ _ _ _ I' q Vq)|apply ACC, Vq].
    - intros q Vq NV. destruct (i_removed _ _ _ _ _ I' q Vq NV) as (q' & V' & [L' _] & SW). exists q'. split; [exact V'|]. split; [exact L'|]. intros w. rewrite !(right_rep g s _ w R), !(readable_rep g s _ w R). apply SW.
    - intros x y Vx Vy H. apply MIN; [exact Vx|exact Vy|]. apply (same_trans _ s _ _ x); [apply same_sym, (i_same _ _ _ _ _ I' x Vx)|]. apply (same_trans _ s _ _ y); [|apply (i_same _ _ _ _ _ I' y Vy)].
      intros w. rewrite <- !(right_rep g s _ w R), <- !(readable_rep g s _ w R). apply H.
    - intros LF x y Vx Vy H. apply MIN; [exact Vx|exact Vy|].
      assert (CO : forall k v, ht v = k -> In v (aa_V s') -> exists w, right (aa_T s') (aa_final s') v w).
      { induction k as [|k IH]; intros v Hv Vv.
        - exists []. apply right_nil. rewrite (i_final _ _ _ _ _ I'). assert (HF : forall q, A_is_final (ia_base g) q = aa_final s q) by apply R. rewrite <- HF. pose proof (i_V _ _ _ _ _ I' v Vv) as Vs. apply LF; [exact Vs|].
          destruct (HI v Vs) as [(l & L & P) _]. rewrite Hv in P. apply upath_first in P; [|exact L]. subst l. exact L.
        - destruct (i_next _ _ _ _ _ I' v k Vv Hv) as (u & a & J & Hu). destruct (IH u Hu) as [w (t & P & FT)]; [apply (iarep_closed g' s' R' _ _ _ J)|]. exists (a :: w), t. split; [econstructor; eassumption|exact FT]. }
      assert (RD : forall x y w, (forall w, right (aa_T s') (aa_final s') x w -> right (aa_T s') (aa_final s') y w) -> In x (aa_V s') -> readable (aa_T s') x w -> readable (aa_T s') y w).
      { intros x0 y0 w H0 V0 (t & P). assert (Vt : In t (aa_V s')) by (clear -P V0 R'; induction P; [assumption|]; apply IHP, (iarep_closed g' s' R' _ _ _ H)). destruct (CO (ht t) t eq_refl Vt) as (w' & t' & P' & FT). destruct (H0 (w ++ w')) as (t2 & P2 & _); [exists t'; split; [eapply path_app; eassumption|exact FT]|]. apply path_split in P2. destruct P2 as (r2 & P2 & _). exists r2. exact P2. }
      assert (H' : forall w, right (aa_T s') (aa_final s') x w <-> right (aa_T s') (aa_final s') y w) by (intros w; rewrite <- !(right_rep g' s' _ w R'); apply H).
      intros w. split; [apply H'|]. split; apply RD; try assumption; intros w'; apply H'.
    - intros HM w. apply eq_iff_eq_true. rewrite (accepts_path _ _ (proj1 R')), (accepts_path _ _ (proj1 R)).
      assert (AQ : forall i, A_initial (ia_base g) = Some i -> (accepted g' i w <-> accepted g i w)).
      { intros i Ei. destruct (in_dec Nat.eq_dec i (aa_V s')) as [Vi|NV]; [apply ACC, Vi|]. destruct (in_dec Nat.eq_dec i (aa_V s)) as [Vs|NVs].
        - exfalso. destruct (i_removed _ _ _ _ _ I' i Vs NV) as (q & Vq & [Lq _] & SW). apply (HM i q Ei Vs (i_V _ _ _ _ _ I' q Vq) Lq). intros w'. rewrite !(right_rep g s _ w' R). apply SW.
        - rewrite (right_rep g' s' i w R'), (right_rep g s i w R), (i_final _ _ _ _ _ I'). destruct w as [|a w]; [rewrite !right_nil; tauto|]. split; intros (t & P & _); inversion P as [|? ? x ? ? J P']; subst; exfalso; [apply NV, (iarep_closed g' s' R' _ _ _ J)|apply NVs, (iarep_closed g s R _ _ _ J)]. }
      split; intros (i & t & Ei & P & FT).
      + rewrite Q0 in Ei. destruct (proj1 (AQ i Ei)) as (t' & P' & FT'); [exists t; auto|]. exists i, t'. auto.
      + destruct (proj2 (AQ i Ei)) as (t' & P' & FT'); [exists t; auto|]. exists i, t'. rewrite Q0. auto.
    - assert (UB : forall v, In v (aa_V s) -> ht v < h').
      { intros v Vv. assert (CL : forall p r a, In (Edge p r a) (aa_T s') -> In r (aa_V s')) by (intros p x a J; apply (iarep_closed g' s' R' _ _ _ J)). destruct (in_dec Nat.eq_dec v (aa_V s')) as [V'|NV]; [apply (level_empty ht s h' s' I' v V' CL)|]. destruct (i_removed _ _ _ _ _ I' v Vv NV) as (q & Vq & [_ <-] & _). apply (level_empty ht s h' s' I' q Vq CL). }
      destruct h' as [|h'].
      + left. split; [reflexivity|]. clear -UB. destruct (aa_V s) as [|v l]; [reflexivity|]. specialize (UB v (or_introl eq_refl)). lia.
      + right. destruct (K h' ltac:(lia)) as (v & Vv & Hv). exists v, h'. split; [exact Vv|]. split; [rewrite <- Hv; apply HI, Vv|]. split; [lia|]. intros u k Vu HK.
        pose proof (UB u Vu). destruct HK as [(l & L & P) _]. pose proof (proj2 (HI u Vu) k l L P). lia.
    - assert (HF : forall q, A_is_final (ia_base g) q = aa_final s q) by apply R. intros i Ei w. split.
      + intros Vi. apply eq_iff_eq_true. rewrite (accepts_path _ _ (proj1 R')), (accepts_path _ _ (proj1 R)). split; intros (i' & t & Ei' & P & FT).
        * rewrite Q0 in Ei'. assert (i' = i) as -> by congruence. destruct (proj1 (ACC i Vi w)) as (t' & P' & FT'); [exists t; auto|]. exists i, t'. auto.
        * assert (i' = i) as -> by congruence. destruct (proj2 (ACC i Vi w)) as (t' & P' & FT'); [exists t; auto|]. exists i, t'. rewrite Q0. auto.
      + intros NV. apply eq_iff_eq_true. rewrite (accepts_path _ _ (proj1 R')). split.
        * intros (i' & t & Ei' & P & FT). rewrite Q0 in Ei'. assert (i' = i) as -> by congruence. destruct w as [|a w].
          -- inversion P; subst. rewrite HF, <- (i_final _ _ _ _ _ I'). rewrite <- FT. symmetry. apply R'.
          -- exfalso. inversion P as [|? ? x ? ? J P']; subst. apply (edges_iff g' s' R') in J. apply NV, (iarep_closed g' s' R' _ _ _ J).
        * destruct w as [|a w]; [|discriminate]. intros FT. exists i, i. rewrite Q0. split; [exact Ei|]. split; [constructor|]. rewrite HF, <- (i_final _ _ _ _ _ I') in FT. rewrite <- FT. apply R'.
  Qed.

  (** C48, exactly: the states that remain are the smallest of each class of states from which the same words are accepted and the same words can be read. The language is preserved when the initial
      state remains; otherwise only the empty word may be accepted. *)
  Theorem C48_kept_states n (ops : list (aop A)) fuel ord ord_v : disciplined (aa_init n) ops -> valid_order ord -> valid_order ord_v ->
    let g := fst (runs IA_call (IA_init n) ops) in
    acyclic (aut_arc (IA_edges g)) -> length (IA_vertices g) <= fuel ->
    exists g' h, revuz_minimize fuel ord ord_v [] g = Some (g', Ok h) /\
      (forall q, In q (IA_vertices g') <-> In q (IA_vertices g) /\ forall q', In q' (IA_vertices g) -> q' < q -> ~ equiv_states g q' q) /\
      (forall i, A_initial (ia_base g) = Some i -> In i (IA_vertices g') -> forall w, A_accepts (ia_base g') w = A_accepts (ia_base g) w) /\
      (forall i, A_initial (ia_base g) = Some i -> ~ In i (IA_vertices g') -> forall w, A_accepts (ia_base g') w = match w with [] => A_is_final (ia_base g) i | _ => false end).
  Proof.
    intros D OE OV g AC F. pose proof (C48_revuz_minimize_partial n ops fuel ord ord_v D OE OV AC F) as (g' & h & E & Q0 & WF & KEEP & REM & MIN & _ & _ & _ & LG). fold g in E, Q0, KEEP, REM, MIN, LG.
    exists g', h. split; [exact E|]. split; [|split].
    - intros q. split.
      + intros Vq. split; [apply KEEP, Vq|]. intros q' V' L' EQ. destruct (in_dec Nat.eq_dec q' (IA_vertices g')) as [K|K]; [specialize (MIN q' q K Vq EQ); lia|].
        destruct (REM q' V' K) as (q2 & V2 & L2 & E2). assert (q2 = q); [|lia]. apply MIN; [exact V2|exact Vq|]. intros w. destruct (EQ w), (E2 w). tauto.
      + intros [Vq H]. destruct (in_dec Nat.eq_dec q (IA_vertices g')) as [K|K]; [exact K|]. destruct (REM q Vq K) as (q2 & V2 & L2 & E2). destruct (H q2 (proj1 (KEEP q2 V2)) L2 E2).
    - intros i Ei Vi w. apply (LG i Ei w), Vi.
    - intros i Ei Vi w. apply (LG i Ei w), Vi.
  Qed.
End A.
Print Assumptions C69_incidence_automaton.
Print Assumptions C48_kept_states.
Print Assumptions C48_revuz_minimize_partial.

Definition id_ord {X} : set_order X := fun _ l => l.
Lemma id_ord_valid X : valid_order (@id_ord X).
Proof. intros n l. reflexivity. Qed.

(** The initial state may be merged away: 0 -7-> 2, 1 -7-> 2, 2 final, and 1 initial. The word [7] is no longer accepted. *)
Theorem C48_initial_merged_refuted : exists (ops : list (aop nat)) g', disciplined (aa_init 3) ops /\
  let g := fst (runs IA_call (IA_init 3) ops) in
  acyclic (aut_arc (IA_edges g)) /\ revuz_minimize 3 id_ord id_ord [] g = Some (g', Ok 1%Z) /\ A_accepts (ia_base g) [7] = true /\ A_accepts (ia_base g') [7] = false.
Proof.
  exists [AAddEdge 0 2 7; AAddEdge 1 2 7; ASetFinal 2 true; ASetInitial (Some 1) true]. eexists. split; [cbn; intuition discriminate|]. intros g. split; [|split; [vm_compute; reflexivity|split; reflexivity]].
  assert (UP : forall u v, aut_arc (IA_edges g) u v -> u < v) by (intros u v [a I]; vm_compute in I; destruct I as [I|[I|[]]]; injection I as <- <- <-; lia).
  intros k v P. assert (G : forall k u v, upath (aut_arc (IA_edges g)) k u v -> u <= v /\ (0 < k -> u < v)) by (clear -UP; induction 1 as [|k u v x R P IH]; [lia|]; specialize (UP _ _ R); lia). destruct (G _ _ _ P) as [_ L]. lia.
Qed.
Print Assumptions C48_initial_merged_refuted.

(** Dead states are not merged: 0 -7-> 1 without final state. No word is accepted from 0 nor from 1. *)
Theorem C48_dead_states_refuted : exists (ops : list (aop nat)) g', disciplined (aa_init 2) ops /\
  let g := fst (runs IA_call (IA_init 2) ops) in
  acyclic (aut_arc (IA_edges g)) /\ revuz_minimize 2 id_ord id_ord [] g = Some (g', Ok 1%Z) /\ IA_vertices g' = [0; 1] /\ forall w, ~ accepted g' 0 w /\ ~ accepted g' 1 w.
Proof.
  exists [AAddEdge 0 1 7]. eexists. split; [cbn; intuition discriminate|]. intros g. split; [|split; [vm_compute; reflexivity|split; [reflexivity|intros w; split; intros (r & _ & F); discriminate]]].
  assert (UP : forall u v, aut_arc (IA_edges g) u v -> u < v) by (intros u v [a I]; vm_compute in I; destruct I as [I|[]]; injection I as <- <- <-; lia).
  intros k v P. assert (G : forall k u v, upath (aut_arc (IA_edges g)) k u v -> u <= v /\ (0 < k -> u < v)) by (clear -UP; induction 1 as [|k u v x R P IH]; [lia|]; specialize (UP _ _ R); lia). destruct (G _ _ _ P) as [_ L]. lia.
Qed.
Print Assumptions C48_dead_states_refuted.

(** 0 -a-> 1, 0 -b-> 2, 1 -c-> 3, 2 -c-> 4, 3 and 4 final: 4 is merged with 3, then 2 with 1. *)
Definition ex_ops : list (aop nat) :=
  [AAddEdge 0 1 1; AAddEdge 0 2 2; AAddEdge 1 3 3; AAddEdge 2 4 3; ASetFinal 3 true; ASetFinal 4 true].
Definition ex_g : iaut nat := fst (runs IA_call (IA_init 5) ex_ops).
Example ex_disciplined : disciplined (aa_init 5) ex_ops.
Proof. cbn. intuition discriminate. Qed.
Example ex_acyclic : acyclic (aut_arc (IA_edges ex_g)).
Proof.
  assert (UP : forall u v, aut_arc (IA_edges ex_g) u v -> u < v) by (intros u v [a I]; vm_compute in I; repeat (destruct I as [I|I]; [injection I as <- <- <-; lia|]); destruct I).
  intros k v P. assert (G : forall k u v, upath (aut_arc (IA_edges ex_g)) k u v -> u <= v /\ (0 < k -> u < v)) by (clear -UP; induction 1 as [|k u v x R P IH]; [lia|]; specialize (UP _ _ R); lia). destruct (G _ _ _ P) as [_ L]. lia.
Qed.
Example C69_example : revuz_height (IA_vertices ex_g) (fun q => length (IA_out_edges ex_g q)) (IA_in_edges ex_g) 5 id_ord [] [] =
  Some (2%Z, [(3, 0); (4, 0); (1, 1); (2, 1); (0, 2)]).
Proof. vm_compute. reflexivity. Qed.
Example C48_example : match revuz_minimize 5 id_ord id_ord [] ex_g with
  | Some (g', Ok h) => IA_vertices g' = [0; 1; 3] /\ IA_edges g' = [Edge 0 1 1; Edge 0 1 2; Edge 1 3 3] /\ h = 2%Z
  | _ => False
  end.
Proof. vm_compute. auto. Qed.
(** The hypothesis on the initial state holds: no state is smaller than 0, and the leaves are final. *)
Example C48_example_applies : exists g', exists h, revuz_minimize 5 id_ord id_ord [] ex_g = Some (g', Ok h) /\
  (forall w, A_accepts (ia_base g') w = A_accepts (ia_base ex_g) w) /\
  forall x y, In x (IA_vertices g') -> In y (IA_vertices g') -> (forall w, accepted g' x w <-> accepted g' y w) -> x = y.
Proof.
  destruct (C48_revuz_minimize_partial 5 ex_ops 5 id_ord id_ord ex_disciplined (id_ord_valid _) (id_ord_valid _) ex_acyclic) as (g' & h & E & _ & _ & _ & _ & _ & M & L & _); [vm_compute; lia|].
  exists g', h. split; [exact E|]. split.
  - apply L. intros i q Ei. vm_compute in Ei. injection Ei as <-. lia.
  - apply M. intros q Vq LF. vm_compute in Vq. repeat destruct Vq as [<-|Vq]; try destruct Vq; try reflexivity; exfalso; eapply LF.
    + exists 1. left. reflexivity.
    + exists 3. vm_compute. tauto.
    + exists 3. vm_compute. tauto.
Qed.
(** With the initial state 2 of [ex_g], which is merged with 1, no word but the empty one may be accepted. *)
Definition ex2_ops : list (aop nat) := ex_ops ++ [ASetInitial (Some 2) true].
Example C48_kept_example : exists g' h, revuz_minimize 5 id_ord id_ord [] (fst (runs IA_call (IA_init 5) ex2_ops)) = Some (g', Ok h) /\ IA_vertices g' = [0; 1; 3] /\ A_accepts (ia_base g') [3] = false /\
  A_accepts (ia_base (fst (runs IA_call (IA_init 5) ex2_ops))) [3] = true.
Proof. eexists. eexists. split; [vm_compute; reflexivity|]. split; [reflexivity|split; vm_compute; reflexivity]. Qed.
