(** Lemmas on minimal deterministic automata. *)
From Verif Require Import Graph GraphProofs Automaton AutomatonSpec AutomatonProofs AutomatonProofs2 Revuz RevuzSpec RevuzProofs RevuzProofs2 MinSpec Base BaseProofs.

Section P.
  Context {A : Type}.
  Implicit Types (d : dfa A) (T : list (edge A)).

  Lemma p_app T q u r v t : path T q u r -> path T r v t -> path T q (u ++ v) t.
  Proof. intros P Q. induction P; cbn; [exact Q|]. econstructor; eauto. Qed.
  Lemma p_split T u : forall q v t, path T q (u ++ v) t -> exists r, path T q u r /\ path T r v t.
  Proof. induction u as [|a u IH]; intros q v t P; cbn in P; [exists q; split; [constructor|exact P]|]. inversion P as [|? ? x ? ? I P']; subst. destruct (IH _ _ _ P') as (r & P1 & P2). exists r. split; [econstructor; eassumption|exact P2]. Qed.
  Lemma p_det d : wf_dfa d -> forall w q r r', path (d_trans d) q w r -> path (d_trans d) q w r' -> r = r'.
  Proof.
    intros W. induction w as [|a w IH]; intros q r r' P P'; inversion P as [|? ? x ? ? I Q]; inversion P' as [|? ? x' ? ? I' Q']; subst; [reflexivity|]. rewrite (wf_det d W _ _ _ _ I I') in Q. apply (IH x'); assumption.
  Qed.
  Lemma p_in d : wf_dfa d -> forall w q r, path (d_trans d) q w r -> In q (d_states d) -> In r (d_states d).
  Proof. intros W w q r P. induction P as [|q a r w t I P IH]; [auto|]. intros _. apply IH, (wf_trans d W _ _ _ I). Qed.
  Lemma words_after d w q : wf_dfa d -> path (d_trans d) (d_init d) w q -> forall v, words_of d q v <-> language d (w ++ v).
  Proof.
    intros W P v. split.
    - intros (t & Q & F). exists t. split; [apply (p_app _ _ _ q); assumption|exact F].
    - intros (t & Q & F). apply p_split in Q. destruct Q as (r & Q1 & Q2). rewrite (p_det d W _ _ _ _ P Q1). exists t. auto.
  Qed.

  (** choosing partners along a list *)
  Lemma matching (R : nat -> nat -> Prop) (V' : list nat) : forall V, NoDup V -> (forall i, In i V -> exists j, In j V' /\ R i j) -> (forall i i' j, In i V -> In i' V -> R i j -> R i' j -> i = i') ->
    exists f, (forall i, In i V -> In (f i) V' /\ R i (f i)) /\ NoDup (map f V).
  Proof.
    induction V as [|i V IH]; intros ND TOT INJ; [exists (fun x => x); split; [intros i []|constructor]|]. apply NoDup_cons_iff in ND. destruct ND as [NI ND].
    destruct IH as (f & Hf & Nf); [exact ND|intros k I; apply TOT; right; exact I|intros a b j Ia Ib; apply INJ; right; assumption|]. destruct (TOT i (or_introl eq_refl)) as (j & Ij & Rj).
    exists (fun x => if x =? i then j else f x). assert (EXT : map (fun x => if x =? i then j else f x) V = map f V) by (apply map_ext_in; intros x I; destruct (Nat.eqb_spec x i) as [->|]; [contradiction|reflexivity]). split.
    - intros x [<-|I]; [rewrite Nat.eqb_refl; auto|]. destruct (Nat.eqb_spec x i) as [->|]; [auto|apply Hf, I].
    - cbn [map]. rewrite Nat.eqb_refl, EXT. constructor; [|exact Nf]. intros I. apply in_map_iff in I. destruct I as (x & E & I). apply NI. destruct (Hf x I) as [_ Rx]. rewrite E in Rx.
      rewrite (INJ i x j (or_introl eq_refl) (or_intror I) Rj Rx). exact I.
  Qed.

  Section Min.
    Variables (M d : dfa A).
    Hypothesis (WM : wf_dfa M) (WD : wf_dfa d).
    Hypothesis AC : accessible M.
    Hypothesis DIST : forall p q, In p (d_states M) -> In q (d_states M) -> (forall w, words_of M p w <-> words_of M q w) -> p = q.
    Hypothesis LANG : forall w, language d w <-> language M w.
    Hypothesis FWD : forall w i, path (d_trans M) (d_init M) w i -> exists j, path (d_trans d) (d_init d) w j.
    Definition R (i j : nat) : Prop := exists w, path (d_trans M) (d_init M) w i /\ path (d_trans d) (d_init d) w j.
    Lemma R_words i j : R i j -> forall v, words_of M i v <-> words_of d j v.
    Proof using WM WD LANG. intros (w & P & Q) v. rewrite (words_after M w i WM P), (words_after d w j WD Q), LANG. reflexivity. Qed.
    Lemma R_total i : In i (d_states M) -> exists j, In j (d_states d) /\ R i j.
    Proof using AC FWD WD. intros Vi. destruct (AC i Vi) as [w P]. destruct (FWD w i P) as [j Q]. exists j. split; [apply (p_in d WD _ _ _ Q), WD|exists w; auto]. Qed.
    Lemma R_inj i i' j : In i (d_states M) -> In i' (d_states M) -> R i j -> R i' j -> i = i'.
    Proof using WM WD LANG DIST. intros Vi Vi' H H'. apply DIST; [assumption..|]. intros w. rewrite (R_words i j H), (R_words i' j H'). reflexivity. Qed.
    Lemma min_count : length (d_states M) <= length (d_states d).
    Proof using WM WD LANG DIST AC FWD.
      destruct (matching R (d_states d) (d_states M) (wf_nodup M WM) R_total R_inj) as (f & Hf & Nf). rewrite <- (map_length f). apply NoDup_incl_length; [exact Nf|]. intros j I. apply in_map_iff in I. destruct I as (i & <- & I). apply Hf, I.
    Qed.
    Hypothesis BWD : forall w j, path (d_trans d) (d_init d) w j -> exists i, path (d_trans M) (d_init M) w i.
    Lemma min_iso : length (d_states M) = length (d_states d) -> isomorphic M d.
    Proof using WM WD LANG DIST AC FWD BWD.
      intros EL. destruct (matching R (d_states d) (d_states M) (wf_nodup M WM) R_total R_inj) as (f & Hf & Nf).
      assert (SU : forall j, In j (d_states d) -> exists i, In i (d_states M) /\ f i = j).
      { intros j Vj. assert (I : In j (map f (d_states M))); [|apply in_map_iff in I; destruct I as (i & E & I); exists i; auto].
        apply (NoDup_length_incl (l' := d_states d) Nf); [rewrite map_length; lia| |exact Vj]. intros x I. apply in_map_iff in I. destruct I as (i & <- & I). apply Hf, I. }
      assert (UN : forall i j, In i (d_states M) -> In j (d_states d) -> R i j -> j = f i).
      { intros i j Vi Vj H. destruct (SU j Vj) as (i' & Vi' & <-). f_equal. apply (R_inj i' i (f i')); [assumption..|apply Hf, Vi'|exact H]. }
      exists f. split; [intros q V; apply Hf, V|]. split; [exact SU|]. split; [intros p q Vp Vq E; destruct (Hf p Vp) as [_ Hp], (Hf q Vq) as [_ Hq]; rewrite E in Hp; apply (R_inj p q (f q)); assumption|]. split; [|split].
      - symmetry. apply UN; [apply WM|apply WD|]. exists []. split; constructor.
      - intros q V. destruct (Hf q V) as [_ H]. pose proof (R_words _ _ H []) as E. unfold words_of, right in E. apply eq_iff_eq_true. split; intros F.
        + destruct (proj2 E) as (t & P & Ft); [exists (f q); split; [constructor|exact F]|]. inversion P; subst. exact Ft.
        + destruct (proj1 E) as (t & P & Ft); [exists q; split; [constructor|exact F]|]. inversion P; subst. exact Ft.
      - intros p q a Vp Vq. destruct (Hf p Vp) as [_ (w & Pp & Pfp)]. split; intros I.
        + assert (P2 : path (d_trans M) (d_init M) (w ++ [a]) q) by (apply (p_app _ _ _ p); [exact Pp|]; econstructor; [exact I|constructor]). destruct (FWD _ _ P2) as [j Q]. pose proof Q as Q0. apply p_split in Q. destruct Q as (r & Q1 & Q2). rewrite <- (p_det d WD _ _ _ _ Pfp Q1) in Q2.
          inversion Q2 as [|? ? x ? ? J P']; subst. inversion P'; subst. rewrite <- (UN q j Vq); [exact J|apply (wf_trans d WD _ _ _ J)|]. exists (w ++ [a]). auto.
        + assert (P2 : path (d_trans d) (d_init d) (w ++ [a]) (f q)) by (apply (p_app _ _ _ (f p)); [exact Pfp|]; econstructor; [exact I|constructor]). destruct (BWD _ _ P2) as [j Q]. pose proof Q as Q0. apply p_split in Q. destruct Q as (r & Q1 & Q2). rewrite <- (p_det M WM _ _ _ _ Pp Q1) in Q2.
          inversion Q2 as [|? ? x ? ? J P']; subst. inversion P'; subst. assert (E : j = q); [|subst j; exact J]. apply (R_inj j q (f q)); [apply (wf_trans M WM _ _ _ J)|exact Vq|exists (w ++ [a]); auto|apply Hf, Vq].
    Qed.
  End Min.

  (** reading a word in another automaton of the same language *)
  Lemma follow_co d d' : wf_dfa d -> coaccessible d -> (forall w, language d w -> language d' w) -> forall w q, path (d_trans d) (d_init d) w q -> exists q', path (d_trans d') (d_init d') w q'.
  Proof.
    intros W C L w q P. destruct (C q) as [v H]; [apply (p_in d W _ _ _ P), W|]. apply (words_after d w q W P) in H. apply L in H. destruct H as (t & Q & _). apply p_split in Q. destruct Q as (r & Q & _). exists r. exact Q.
  Qed.
  Lemma follow_complete S d d' : complete_over S d -> wf_dfa d' -> complete_over S d' -> forall w q, path (d_trans d) (d_init d) w q -> exists q', path (d_trans d') (d_init d') w q'.
  Proof.
    intros [C _] W' [_ C'] w q P. assert (I : In (d_init d') (d_states d')) by apply W'. revert I. generalize (d_init d'). induction P as [|p a r w t J P IH]; intros x I; [exists x; constructor|].
    destruct (C' x a I (C _ _ _ J)) as [y J']. destruct (IH y) as [z P']; [apply (wf_trans d' W' _ _ _ J')|]. exists z. econstructor; eassumption.
  Qed.

  (** The two ways of having the fewest states *)
  Lemma min_trim M : wf_dfa M -> accessible M -> coaccessible M -> (forall p q, In p (d_states M) -> In q (d_states M) -> (forall w, words_of M p w <-> words_of M q w) -> p = q) ->
    forall d, wf_dfa d -> (forall w, language d w <-> language M w) -> length (d_states M) <= length (d_states d) /\ (length (d_states M) = length (d_states d) -> isomorphic M d).
  Proof.
    intros WM AC CO DI d WD L. assert (FWD : forall w i, path (d_trans M) (d_init M) w i -> exists j, path (d_trans d) (d_init d) w j) by (apply follow_co; [assumption..|]; intros w; apply L).
    split; [apply min_count; assumption|]. intros EL. apply min_iso; try assumption.
    apply follow_co; [assumption| |intros w; apply L]. intros j Vj.
    destruct (matching (R M d) (d_states d) (d_states M) (wf_nodup M WM) (R_total M d WD AC FWD) (R_inj M d WM WD DI L)) as (f & Hf & Nf).
    assert (I : In j (map f (d_states M))).
    { apply (NoDup_length_incl (l' := d_states d) Nf); [rewrite map_length; lia| |exact Vj]. intros x I. apply in_map_iff in I. destruct I as (i & <- & I). apply Hf, I. }
    apply in_map_iff in I. destruct I as (i & <- & I). destruct (CO i I) as [w Hw]. exists w. apply (R_words M d WM WD L i (f i)); [apply Hf, I|exact Hw].
  Qed.
  Lemma min_complete M S : wf_dfa M -> accessible M -> complete_over S M -> (forall p q, In p (d_states M) -> In q (d_states M) -> (forall w, words_of M p w <-> words_of M q w) -> p = q) ->
    forall d, wf_dfa d -> complete_over S d -> (forall w, language d w <-> language M w) -> length (d_states M) <= length (d_states d) /\ (length (d_states M) = length (d_states d) -> isomorphic M d).
  Proof.
    intros WM AC CO DI d WD CD L. split; [apply min_count|intros EL; apply min_iso]; try assumption; intros w q P; (eapply follow_complete; [| | |exact P]); eassumption.
  Qed.
End P.

Lemma iarep_wf {A} {EA : EqDec A} (g : iaut A) s q : iarep g s -> In q (IA_vertices g) -> wf_dfa (ia_dfa g q).
Proof.
  intros R Vq. assert (EV : IA_vertices g = aa_V s) by apply (obs_vertices _ _ (proj1 R)). assert (EE : forall e, In e (IA_edges g) -> In e (aa_T s)) by (intros e; apply Permutation_in, (obs_edges _ _ (proj1 R))).
  split; cbn [d_states d_trans d_init ia_dfa].
  - rewrite EV. apply (iarep_nodup g s R).
  - exact Vq.
  - intros q' r a I. rewrite EV. apply (iarep_closed g s R q' r a), EE, I.
  - intros q' r r' a I I'. apply (iarep_det g s R q' r r' a); apply EE; assumption.
Qed.

(** accepts decides the language of the automaton *)
Lemma accepts_language {A} {EA : EqDec A} (g : iaut A) s q0 w : iarep g s -> A_initial (ia_base g) = Some q0 -> (A_accepts (ia_base g) w = true <-> language (ia_dfa g q0) w).
Proof.
  intros R Q. rewrite (accepts_path _ _ (proj1 R)). split.
  - intros (q & t & E & P & F). rewrite Q in E. injection E as <-. exists t. auto.
  - intros (t & P & F). exists q0, t. auto.
Qed.
