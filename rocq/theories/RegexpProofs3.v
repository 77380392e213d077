(** Lemmas on thompson_compile_nfa. *)
From Coq Require Import String.
From Verif Require Import Str BaseProofs Graph Automaton Nfa Thompson ThompsonSpec ThompsonProofs ThompsonProofs3 ThompsonProofs4 ShuntingYard SYSpec SYProofs Regexp RegexpSpec RegexpProofs RegexpProofs2.
Open Scope string_scope.
Open Scope nat_scope.
Open Scope list_scope.
#[local] Arguments dkeys : simpl never.

Section C.
  Variables (ordc : set_order char) (ordn : set_order nat) (alphabet : list char).
  Hypothesis OC : valid_order ordc.
  Hypothesis ON : valid_order ordn.
  Notation frag := (nfa char * nat * nat)%type.
  Notation push := (on_push_output ordc ordn alphabet).
  Definition semq (x : frag) (q : quad) : Prop := sem epsilon x (qL q) (qQ q) (qF q) (qB q).

  Lemma push_dot x1 x2 nfas x : concatenation x1 x2 = Ok x -> push (x2 :: x1 :: nfas) (lit ".") = Ok (x :: nfas).
  Proof. intros E. unfold on_push_output. change (rbind (concatenation x1 x2) (fun x => Ok (x :: nfas)) = Ok (x :: nfas)). rewrite E. reflexivity. Qed.
  Lemma push_bar x1 x2 nfas x : alternation x1 x2 = Ok x -> push (x2 :: x1 :: nfas) (lit "|") = Ok (x :: nfas).
  Proof. intros E. unfold on_push_output. change (rbind (alternation x1 x2) (fun x => Ok (x :: nfas)) = Ok (x :: nfas)). rewrite E. reflexivity. Qed.
  Lemma push_star x nfas : push (x :: nfas) (lit "*") = Ok (zero_or_more x :: nfas).
  Proof. reflexivity. Qed.
  Lemma push_plus x nfas : push (x :: nfas) (lit "+") = Ok (one_or_more x :: nfas).
  Proof. reflexivity. Qed.
  Lemma push_opt x nfas : push (x :: nfas) (lit "?") = Ok (zero_or_one x :: nfas).
  Proof. reflexivity. Qed.
  Lemma push_bounds b x nfas y : bounds_ok b -> repetition_range epsilon ordn x (bmin b) (bmax b) = Ok y -> push (x :: nfas) (bounds_text b) = Ok (y :: nfas).
  Proof.
    intros OK E. pose proof (parse_repetition_text b OK) as P. destruct (bounds_text_long b) as (d & s & Eb). rewrite Eb in *.
    change (rbind (parse_repetition (ch "{" :: d :: s)) (fun '(m, n) => rbind (repetition_range epsilon ordn x m n) (fun x => Ok (x :: nfas))) = Ok (y :: nfas)).
    rewrite P. cbn [rbind]. rewrite E. reflexivity.
  Qed.
  Lemma push_class neg l nfas chars : parse_bracket (class_text neg l) alphabet = Ok chars -> push nfas (class_text neg l) = Ok (bracket epsilon (ordc 0 chars) :: nfas).
  Proof.
    intros P. destruct (class_text_long neg l) as (d & s & Eb). rewrite Eb in *.
    change (rbind (parse_bracket (ch "[" :: d :: s) alphabet) (fun chars => Ok (bracket epsilon (ordc 0 chars) :: nfas)) = Ok (bracket epsilon (ordc 0 chars) :: nfas)).
    rewrite P. reflexivity.
  Qed.
  Lemma push_esc c nfas chars : parse_escaped [ch "\"; c] alphabet = Ok chars -> push nfas [ch "\"; c] = Ok (bracket epsilon (ordc 0 chars) :: nfas).
  Proof.
    intros P. change (rbind (parse_escaped [ch "\"; c] alphabet) (fun chars => Ok (bracket epsilon (ordc 0 chars) :: nfas)) = Ok (bracket epsilon (ordc 0 chars) :: nfas)).
    rewrite P. reflexivity.
  Qed.
  Lemma push_char c nfas : ~ In c (lit "*+?.|(){[\") -> push nfas [c] = Ok (literal epsilon c :: nfas).
  Proof.
    intros N. unfold on_push_output.
    assert (M1 : mem ([c] : str) [lit "."; lit "|"] = false) by (apply mem_false; intros [E|[E|[]]]; injection E as <-; apply N; cbv; tauto).
    assert (M2 : mem ([c] : str) [lit "?"; lit "*"; lit "+"] = false) by (apply mem_false; intros [E|[E|[E|[]]]]; injection E as <-; apply N; cbv; tauto).
    rewrite M1, M2. rewrite !(fun d => proj2 (eqb_neq c d)); [reflexivity|..]; intros ->; apply N; cbv; tauto.
  Qed.

  Lemma sem_chars chars P : ~ P epsilon -> (forall x, In x chars <-> P x) -> semq (bracket epsilon (ordc 0 chars)) (q_sym P).
  Proof.
    intros NP HP. assert (HO : forall x, In x (ordc 0 chars) <-> P x).
    { intros x. rewrite <- HP. split; apply Permutation_in; [|symmetry]; apply (OC 0 chars). }
    eapply sem_ext; [apply sem_bracket; rewrite HO; exact NP|..]; cbn [q_sym qL qQ qF qB]; try reflexivity.
    intros w. split; intros (a & -> & X); exists a; (split; [reflexivity|]); apply HO; exact X.
  Qed.

  Lemma q0_bracket chars : snd (fst (bracket epsilon chars)) = 0.
  Proof. reflexivity. Qed.
  Lemma q0_opt (x : frag) : snd (fst (zero_or_one x)) = snd (fst x).
  Proof. destruct x as [[? ?] ?]. reflexivity. Qed.

  Lemma range_0_1 (x : frag) : repetition_range epsilon ordn x 0 (Some 1) = Ok (zero_or_one x).
  Proof. destruct x as [[? ?] ?]. reflexivity. Qed.
  Lemma range_0_inf (x : frag) : repetition_range epsilon ordn x 0 None = Ok (zero_or_more x).
  Proof. destruct x as [[? ?] ?]. reflexivity. Qed.
  Lemma range_1_inf (x : frag) : repetition_range epsilon ordn x 1 None = Ok (one_or_more x).
  Proof. destruct x as [[? ?] ?]. reflexivity. Qed.

  (** reading the postfix form *)
  Lemma compile_postfix r : well_formed alphabet r -> forall q, actual alphabet r = Some q ->
    exists x, semq x q /\ (starts0 r = true -> snd (fst x) = 0) /\ forall nfas, pushes push nfas (postfix (tree_re r)) = Ok (x :: nfas).
  Proof.
    induction r as [c|neg l|c|a IHa b IHb|a IHa b IHb|x IH|x IH|x IH|x IH b|x IH]; intros W q A; cbn [actual well_formed tree_re postfix] in *.
    - injection A as <-. destruct W as (N & NE). exists (literal epsilon c). split; [apply (sem_literal epsilon c NE)|]. split; [reflexivity|].
      intros nfas. cbn [pushes]. rewrite (push_char c nfas N). reflexivity.
    - injection A as <-. destruct W as (OK & _ & NE). destruct (parse_bracket_class alphabet neg l OK) as (chars & P & H). exists (bracket epsilon (ordc 0 chars)).
      split; [apply sem_chars; assumption|]. split; [reflexivity|]. intros nfas. cbn [pushes]. rewrite (push_class neg l nfas chars P). reflexivity.
    - injection A as <-. destruct W as (I & NE). destruct (escaped_spec alphabet c I) as (chars & P & H). exists (bracket epsilon (ordc 0 chars)).
      split; [apply sem_chars; assumption|]. split; [reflexivity|]. intros nfas. cbn [pushes]. rewrite (push_esc c nfas chars P). reflexivity.
    - destruct (actual alphabet a) as [qa|]; [|discriminate]. destruct (actual alphabet b) as [qb|]; [|discriminate]. injection A as <-. destruct W as (Wa & Wb & _).
      destruct (IHa Wa qa eq_refl) as (xa & Sa & Za & Pa), (IHb Wb qb eq_refl) as (xb & Sb & Zb & Pb).
      destruct (sem_cat epsilon xa xb _ _ _ _ _ _ _ _ Sa Sb) as (x & E & Sx & Q0). exists x. split; [exact Sx|]. split; [intros Z; rewrite Q0; apply Za, Z|].
      intros nfas. rewrite pushes_app, Pa. cbn [rbind]. rewrite pushes_app, Pb. cbn [rbind pushes]. rewrite (push_dot xa xb nfas x E). reflexivity.
    - destruct (actual alphabet a) as [qa|]; [|discriminate]. destruct (actual alphabet b) as [qb|]; [|discriminate]. injection A as <-. destruct W as (Wa & Wb & _).
      destruct (IHa Wa qa eq_refl) as (xa & Sa & Za & Pa), (IHb Wb qb eq_refl) as (xb & Sb & Zb & Pb).
      destruct (sem_alt epsilon xa xb _ _ _ _ _ _ _ _ Sa Sb) as (x & E & Sx). exists x. split; [exact Sx|]. split; [discriminate|].
      intros nfas. rewrite pushes_app, Pa. cbn [rbind]. rewrite pushes_app, Pb. cbn [rbind pushes]. rewrite (push_bar xa xb nfas x E). reflexivity.
    - destruct (actual alphabet x) as [q'|]; [|discriminate]. injection A as <-. destruct (IH (proj1 W) q' eq_refl) as (y & Sy & Zy & Py).
      exists (zero_or_more y). split; [apply (sem_star epsilon y _ _ _ _ Sy)|]. split; [discriminate|]. intros nfas. rewrite pushes_app, Py. cbn [rbind pushes]. rewrite push_star. reflexivity.
    - destruct (actual alphabet x) as [q'|]; [|discriminate]. injection A as <-. destruct (IH (proj1 W) q' eq_refl) as (y & Sy & Zy & Py).
      exists (one_or_more y). split; [apply (sem_plus epsilon y _ _ _ _ Sy)|]. split; [discriminate|]. intros nfas. rewrite pushes_app, Py. cbn [rbind pushes]. rewrite push_plus. reflexivity.
    - destruct (actual alphabet x) as [q'|]; [|discriminate]. injection A as <-. destruct (IH (proj1 W) q' eq_refl) as (y & Sy & Zy & Py).
      exists (zero_or_one y). split; [apply (proj1 (sem_opt epsilon y _ _ _ _ Sy))|]. split; [intros Z; rewrite q0_opt; apply Zy, Z|]. intros nfas. rewrite pushes_app, Py. cbn [rbind pushes]. rewrite push_opt. reflexivity.
    - destruct (actual alphabet x) as [q'|]; [|discriminate]. destruct W as (W & _ & OK). destruct (IH W q' eq_refl) as (y & Sy & Zy & Py).
      assert (R : exists z, repetition_range epsilon ordn y (bmin b) (bmax b) = Ok z /\ semq z q /\ (starts0 (Rep x b) = true -> snd (fst z) = 0)).
      { cbn [starts0]. assert (LE : match bmax b with Some n => bmin b <= n | None => True end) by (destruct b; cbn in *; [lia|trivial|apply OK]).
        destruct (bmin b) as [|[|m]] eqn:Em, (bmax b) as [[|[|n]]|] eqn:En; cbn [q_rep] in A; try lia.
        - destruct (starts0 x) eqn:Z0; [|discriminate]. injection A as <-. destruct (sem_range00 epsilon ordn y _ _ _ _ ON Sy (Zy eq_refl)) as (z & E & Sz & Qz). exists z. auto.
        - injection A as <-. exists (zero_or_one y). split; [apply range_0_1|]. split; [apply (proj1 (sem_opt epsilon y _ _ _ _ Sy))|]. rewrite q0_opt. exact Zy.
        - destruct (starts0 x) eqn:Z0; [|discriminate]. injection A as <-. destruct (sem_range0 epsilon ordn y _ _ _ _ (S (S n)) ON Sy (Zy eq_refl)) as (z & E & Sz & Qz); [lia|]. exists z. auto.
        - injection A as <-. exists (zero_or_more y). split; [apply range_0_inf|]. split; [apply (sem_star epsilon y _ _ _ _ Sy)|]. discriminate.
        - injection A as <-. destruct (sem_range epsilon ordn y _ _ _ _ 1 1 ON Sy) as (z & E & Sz & Qz); [lia|lia|]. exists z. split; [exact E|]. split; [exact Sz|]. rewrite Qz. exact Zy.
        - injection A as <-. destruct (sem_range epsilon ordn y _ _ _ _ 1 (S (S n)) ON Sy) as (z & E & Sz & Qz); [lia|lia|]. exists z. split; [exact E|]. split; [exact Sz|]. rewrite Qz. exact Zy.
        - injection A as <-. exists (one_or_more y). split; [apply range_1_inf|]. split; [apply (sem_plus epsilon y _ _ _ _ Sy)|]. discriminate.
        - injection A as <-. destruct (sem_range epsilon ordn y _ _ _ _ (S (S m)) (S (S n)) ON Sy) as (z & E & Sz & Qz); [lia|lia|]. exists z. split; [exact E|]. split; [exact Sz|]. rewrite Qz. exact Zy.
        - injection A as <-. destruct (sem_unbounded epsilon ordn y _ _ _ _ (S (S m)) Sy) as (z & E & Sz & Qz); [lia|]. exists z. split; [exact E|]. split; [exact Sz|]. rewrite Qz. exact Zy. }
      destruct R as (z & E & Sz & Qz). exists z. split; [exact Sz|]. split; [exact Qz|]. intros nfas. rewrite pushes_app, Py. cbn [rbind pushes]. rewrite (push_bounds b y nfas z OK E). reflexivity.
    - apply (IH W q A).
  Qed.

  Lemma compile_show r q : well_formed alphabet r -> actual alphabet r = Some q ->
    exists x, thompson_compile_nfa ordc ordn alphabet (show r) = Ok x /\ semq x q.
  Proof.
    intros W A. destruct (compile_postfix r W q A) as (x & Sx & _ & P). exists x. split; [|exact Sx].
    assert (X : shunting_yard_postfix (lit "(") (lit ")") map_operators_re push (tokenizer_re (show r)) [] = Ok [x]).
    { rewrite (tokenizer_show alphabet r W). rewrite (shunting_yard_tree (lit "(") (lit ")") map_operators_re); [apply P|cbv; intuition discriminate|discriminate|].
      apply (tree_re_fits alphabet r W). }
    unfold thompson_compile_nfa. destruct (show r) eqn:E; [|rewrite X; reflexivity].
    cbn in X. discriminate.
  Qed.
End C.
