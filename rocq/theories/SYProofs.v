(** Lemmas on tokenize and shunting_yard_postfix. *)
From Verif Require Import Base BaseProofs ShuntingYard SYSpec.
#[local] Arguments dkeys : simpl never.

Section SY.
  Context {T : Type} `{EqDec T}.
  Variables lpar rpar : T.
  Variable ops : dict T Op.
  Hypothesis NLops : ~ In lpar (dkeys ops).
  Context {O : Type}.
  Variable push : O -> T -> res O.

  (** push_output of several tokens *)
  Fixpoint pushes (out : O) (l : list T) : res O :=
    match l with [] => Ok out | a :: l' => rbind (push out a) (fun out => pushes out l') end.
  Lemma rbind_assoc {X Y Z} (o : res X) (f : X -> res Y) (g : Y -> res Z) : rbind (rbind o f) g = rbind o (fun x => rbind (f x) g).
  Proof. destruct o; reflexivity. Qed.
  Lemma pushes_app out l1 l2 : pushes out (l1 ++ l2) = rbind (pushes out l1) (fun out => pushes out l2).
  Proof. revert out. induction l1 as [|a l1 IH]; intros out; cbn; [reflexivity|]. rewrite rbind_assoc. destruct (push out a); cbn; [apply IH|reflexivity]. Qed.
  Lemma flush_pushes s out : flush push s out = pushes out s.
  Proof. revert out. induction s as [|a s IH]; intros out; cbn; [reflexivity|]. destruct (push out a); cbn; [apply IH|reflexivity]. Qed.
  Lemma rbind_ext {X Y} (o : res X) (f g : X -> res Y) : (forall x, f x = g x) -> rbind o f = rbind o g.
  Proof. intros E. destruct o; cbn; auto. Qed.
  Lemma tokens_app s l1 l2 : tokens_loop lpar rpar ops push s (l1 ++ l2) = rbind (tokens_loop lpar rpar ops push s l1) (fun s => tokens_loop lpar rpar ops push s l2).
  Proof. revert s. induction l1 as [|a l1 IH]; intros s; cbn; [reflexivity|]. rewrite rbind_assoc. destruct (token_step _ _ _ _ s a); cbn; [apply IH|reflexivity]. Qed.

  Lemma preceeds_spec o1 o2 p2 : dget ops o2 = Some p2 -> (preceeds ops o1 p2 = true <-> binds_left ops o1 o2).
  Proof.
    intros E2. unfold preceeds, binds_left, preceeds_op. split.
    - destruct (dget ops o1) as [p1|] eqn:E1; [|discriminate]. intros X. exists p1, p2. repeat (split; [assumption || reflexivity|]).
      destruct (left p2); cbn [negb andb orb] in X; [rewrite Nat.leb_le in X|rewrite orb_false_r, Nat.ltb_lt in X]; [|auto].
      destruct (Nat.eq_dec (precedence p1) (precedence p2)); [auto|lia].
    - intros (p1 & p2' & -> & E2' & X). rewrite E2 in E2'. injection E2' as <-.
      destruct (left p2); cbn [negb andb orb]; [rewrite Nat.leb_le; lia|]. rewrite orb_false_r, Nat.ltb_lt. destruct X as [X|(_ & X)]; [exact X|discriminate].
  Qed.

  (** the top of the stack does not take the operand from [o] *)
  Definition top_ok (s : list T) (o : T) : Prop := match s with [] => True | o' :: _ => ~ binds_left ops o' o end.

  Lemma close_pops l s out : (forall o, In o l -> o <> lpar) ->
    close_loop lpar push (l ++ lpar :: s) out = rbind (pushes out l) (fun out => Ok (s, out)).
  Proof.
    revert out. induction l as [|o l IH]; intros out HL; cbn.
    - rewrite eqb_refl. reflexivity.
    - destruct (eqb_spec o lpar) as [->|N]; [destruct (HL lpar); [left|]; reflexivity|]. rewrite rbind_assoc. apply rbind_ext. intros out'.
      apply IH. intros o' I. apply HL. right. exact I.
  Qed.
  Lemma pop_pops o p l s out : dget ops o = Some p -> (forall o', In o' l -> binds_left ops o' o) -> top_ok s o ->
    pop_loop ops push p (l ++ s) out = rbind (pushes out l) (fun out => Ok (s, out)).
  Proof.
    intros E. revert out. induction l as [|o' l IH]; intros out HL TO; cbn.
    - destruct s as [|o' s]; cbn; [reflexivity|]. destruct (preceeds ops o' p) eqn:X; [|reflexivity]. apply (preceeds_spec o' o p E) in X. destruct (TO X).
    - rewrite (proj2 (preceeds_spec o' o p E)) by (apply HL; left; reflexivity). rewrite rbind_assoc. apply rbind_ext. intros out'. apply IH; [|exact TO].
      intros o'' I. apply HL. right. exact I.
  Qed.

  Lemma border_operator t : fits lpar rpar ops t -> (forall o, In o (right_border t) -> operator lpar rpar ops o) /\ (forall o, In o (left_border t) -> operator lpar rpar ops o).
  Proof.
    induction t as [a|x IH a|l IHl o r IHr|x IH o|o x IH|x IH]; cbn [fits right_border left_border].
    - split; intros o [].
    - intros (F & _). split; [intros o []|apply IH, F].
    - intros (F1 & Oo & F2 & _). specialize (IHl F1). specialize (IHr F2). split; intros o'.
      + intros [<-|X]; [exact Oo|]. apply (proj1 IHr), X.
      + intros X. apply in_app_iff in X. destruct X as [X|[<-|[]]]; [apply (proj2 IHl), X|exact Oo].
    - intros (F1 & Oo & _). specialize (IH F1). split; intros o'; [intros [<-|[]]; exact Oo|].
      intros X. apply in_app_iff in X. destruct X as [X|[<-|[]]]; [apply (proj2 IH), X|exact Oo].
    - intros (Oo & F & _). specialize (IH F). split; intros o'; [intros [<-|X]; [exact Oo|apply (proj1 IH), X]|]. intros [<-|[]]. exact Oo.
    - intros _. split; intros o [].
  Qed.

  Lemma operator_get o : operator lpar rpar ops o -> exists p, dget ops o = Some p /\ eqb o lpar = false /\ eqb o rpar = false.
  Proof. intros (N1 & N2 & I). apply key_dget in I. destruct I as (p & E). exists p. rewrite !eqb_neq. auto. Qed.

  Lemma step_operator o p l s out : dget ops o = Some p -> eqb o lpar = false -> eqb o rpar = false ->
    (forall o', In o' l -> binds_left ops o' o) -> top_ok s o ->
    token_step lpar rpar ops push (l ++ s, out) o = rbind (pushes out l) (fun out => Ok (o :: s, out)).
  Proof.
    intros E E1 E2 HL TO. cbn. rewrite E1, E2, E. rewrite (pop_pops o p l s out E HL TO), rbind_assoc. apply rbind_ext. reflexivity.
  Qed.
  Lemma step_operand a s out : operand lpar rpar ops a -> token_step lpar rpar ops push (s, out) a = rbind (push out a) (fun out => Ok (s, out)).
  Proof.
    intros (N1 & N2 & N3). cbn. rewrite (proj2 (eqb_neq _ _) N1), (proj2 (eqb_neq _ _) N2), (proj2 (dget_None _ _) N3). reflexivity.
  Qed.

  (** Reading the infix form: part of the postfix form has been output, the rest is the right border on the stack. *)
  Lemma read_tree t : lpar <> rpar -> fits lpar rpar ops t -> exists done, done ++ rev (right_border t) = postfix t /\
    forall s out, (forall o, In o (left_border t) -> top_ok s o) ->
      tokens_loop lpar rpar ops push (s, out) (infix lpar rpar t) = rbind (pushes out done) (fun out => Ok (rev (right_border t) ++ s, out)).
  Proof.
    intros NLR. induction t as [a|x IH a|l IHl o r IHr|x IH o|o x IH|x IH]; cbn [fits right_border left_border infix postfix].
    - intros F. exists [a]. split; [reflexivity|]. intros s out _. cbn [tokens_loop pushes rev app]. rewrite (step_operand a s out F), !rbind_assoc. apply rbind_ext. reflexivity.
    - intros (F & Fa & E). destruct (IH F) as (d & Ed & Hd). rewrite E in *. cbn [rev app] in *. rewrite app_nil_r in Ed. subst d. exists (postfix x ++ [a]). split; [apply app_nil_r|].
      intros s out TO. rewrite tokens_app, (Hd s out TO), rbind_assoc, pushes_app, rbind_assoc. apply rbind_ext. intros out1. cbn [rbind tokens_loop pushes].
      rewrite (step_operand a s out1 Fa), !rbind_assoc. apply rbind_ext. reflexivity.
    - intros (F1 & Oo & F2 & B1 & B2). destruct (IHl F1) as (dl & El & Hl), (IHr F2) as (dr & Er & Hr). exists (postfix l ++ dr). split.
      + cbn [rev]. rewrite <- Er, <- !app_assoc. reflexivity.
      + intros s out TO. destruct (operator_get o Oo) as (p & Ep & E1 & E2).
        rewrite tokens_app, Hl by (intros o' I; apply TO, in_app_iff; left; exact I). rewrite rbind_assoc, <- El, <- app_assoc, pushes_app, rbind_assoc. apply rbind_ext. intros out1.
        cbn [rbind tokens_loop]. rewrite (step_operator o p _ s out1 Ep E1 E2); [|intros o' I; apply B1, in_rev, I|apply TO, in_app_iff; right; left; reflexivity].
        rewrite pushes_app, !rbind_assoc. apply rbind_ext. intros out2. cbn [rbind]. rewrite Hr by (intros o' I; apply B2; exact I). apply rbind_ext. intros out3.
        cbn [rev]. rewrite <- app_assoc. reflexivity.
    - intros (F1 & Oo & B1). destruct (IH F1) as (d & Ed & Hd). exists (postfix x). split; [reflexivity|]. intros s out TO. destruct (operator_get o Oo) as (p & Ep & E1 & E2).
      rewrite tokens_app, Hd by (intros o' I; apply TO, in_app_iff; left; exact I). rewrite rbind_assoc, <- Ed, pushes_app, rbind_assoc. apply rbind_ext. intros out1.
      cbn [rbind tokens_loop]. rewrite (step_operator o p _ s out1 Ep E1 E2); [|intros o' I; apply B1, in_rev, I|apply TO, in_app_iff; right; left; reflexivity].
      rewrite !rbind_assoc. apply rbind_ext. reflexivity.
    - intros (Oo & F & B). destruct (IH F) as (d & Ed & Hd). exists d. split; [cbn [rev]; rewrite app_assoc, Ed; reflexivity|]. intros s out TO.
      destruct (operator_get o Oo) as (p & Ep & E1 & E2). cbn [tokens_loop].
      pose proof (step_operator o p [] s out Ep E1 E2 (fun o' X => match X with end) (TO o (or_introl eq_refl))) as X. cbn [app] in X. rewrite X. clear X. cbn [pushes rbind]. rewrite Hd by (intros o' I; apply B; exact I).
      apply rbind_ext. intros out1. cbn [rev]. rewrite <- app_assoc. reflexivity.
    - intros F. destruct (IH F) as (d & Ed & Hd). exists (postfix x). split; [apply app_nil_r|]. intros s out _. cbn [tokens_loop token_step]. rewrite eqb_refl. cbn [rbind].
      assert (NB : forall o', ~ binds_left ops lpar o').
      { intros o' (p1 & p2 & E1 & _). apply NLops. eapply dget_Some_key. exact E1. }
      rewrite tokens_app, Hd by (intros o' I; cbn; apply NB). rewrite rbind_assoc, <- Ed, pushes_app, rbind_assoc. apply rbind_ext. intros out1. cbn [rbind tokens_loop token_step].
      assert (ER : eqb rpar lpar = false) by (apply eqb_neq; congruence). rewrite ER, eqb_refl.
      rewrite close_pops by (intros o I; apply in_rev in I; apply (proj1 (border_operator x F)) in I; apply I). rewrite !rbind_assoc. apply rbind_ext. reflexivity.
  Qed.

  Lemma shunting_yard_tree t out : lpar <> rpar -> fits lpar rpar ops t ->
    shunting_yard_postfix lpar rpar ops push (infix lpar rpar t) out = pushes out (postfix t).
  Proof.
    intros NLR F. destruct (read_tree t NLR F) as (d & Ed & Hd). unfold shunting_yard_postfix. rewrite (Hd [] out) by (intros o _; exact I).
    rewrite rbind_assoc, <- Ed, pushes_app. apply rbind_ext. intros out1. cbn [rbind]. rewrite app_nil_r. apply flush_pushes.
  Qed.

  Lemma parenthesize_fits t : tokens_ok lpar rpar ops t -> fits lpar rpar ops (parenthesize t).
  Proof. induction t; cbn; intuition. Qed.
  Lemma parenthesize_postfix (t : tree (T := T)) : postfix (parenthesize t) = postfix t.
  Proof. induction t; cbn; congruence. Qed.
End SY.

Section Tok.
  Context {C : Type}.
  Implicit Types s : list C.
  Definition piece (e : event C) : list C := match e with OnUnmatched p _ _ | OnMatched p _ _ => p end.

  Lemma skipn_skipn (n m : nat) s : skipn n (skipn m s) = skipn (m + n) s.
  Proof. revert s. induction m as [|m IH]; intros s; cbn; [reflexivity|]. destruct s; [apply skipn_nil|apply IH]. Qed.
  Lemma slice_app s i j : i <= j -> slice s i j ++ skipn j s = skipn i s.
  Proof.
    intros Hij. unfold slice. rewrite <- (firstn_skipn (j - i) (skipn i s)) at 2. f_equal. rewrite skipn_skipn. f_equal. lia.
  Qed.
  Lemma concat_tokenize s start ms : (forall pre m post, ms = pre ++ m :: post -> fst m <= snd m) ->
    (forall pre m post, ms = pre ++ m :: post -> match rev pre with [] => start | m' :: _ => snd m' end <= fst m) ->
    concat (map piece (tokenize_loop s start ms)) = skipn start s.
  Proof.
    revert start. induction ms as [|[i j] ms IH]; intros start H1 H2; cbn [tokenize_loop].
    - destruct (skipn start s) as [|c r]; cbn; [reflexivity|]. rewrite app_nil_r. reflexivity.
    - pose proof (H1 [] (i, j) ms eq_refl) as A1. pose proof (H2 [] (i, j) ms eq_refl) as A2. cbn in A1, A2.
      rewrite !map_app, !concat_app, IH.
      + assert (E1 : concat (map piece (match slice s start i with [] => [] | u => [OnUnmatched u start (Some i)] end)) = slice s start i).
        { destruct (slice s start i); cbn; [reflexivity|]. rewrite app_nil_r. reflexivity. }
        assert (E2 : concat (map piece (match slice s i j with [] => [] | u => [OnMatched u i j] end)) = slice s i j).
        { destruct (slice s i j); cbn; [reflexivity|]. rewrite app_nil_r. reflexivity. }
        rewrite E1, E2, slice_app by exact A1. apply slice_app. exact A2.
      + intros pre m post ->. apply (H1 ((i, j) :: pre) m post eq_refl).
      + intros pre m post E. specialize (H2 ((i, j) :: pre) m post). rewrite E in H2. specialize (H2 eq_refl). cbn [rev] in H2.
        destruct (rev pre); exact H2.
  Qed.
End Tok.

(** ** The events of tokenize, without the positions *)
From Verif Require Import Str.
Section Segs.
  Context {C : Type}.
  Variable match_here : list C -> option nat.
  Definition erase (e : event C) : bool * list C := match e with OnUnmatched p _ _ => (false, p) | OnMatched p _ _ => (true, p) end.
  Definition flushp (p : list C) : list (bool * list C) := match p with [] => [] | _ => [(false, p)] end.
  (** [segs p s l]: with [p] the unmatched characters already read, reading [s] gives the pieces [l] *)
  Inductive segs : list C -> list C -> list (bool * list C) -> Prop :=
  | segs_end p : segs p [] (flushp p)
  | segs_unmatched p c r l : match_here (c :: r) = None -> segs (p ++ [c]) r l -> segs p (c :: r) l
  | segs_matched p m r l : m <> [] -> match_here (m ++ r) = Some (List.length m) -> segs [] r l -> segs p (m ++ r) (flushp p ++ (true, m) :: l).

  Lemma scan_skip m r k i : k = List.length m -> scan match_here k i (m ++ r) = scan match_here 0 (i + k) r.
  Proof.
    revert k i. induction m as [|c m IH]; intros k i ->; cbn [app List.length].
    - rewrite Nat.add_0_r. reflexivity.
    - cbn [scan]. rewrite (IH _ (Datatypes.S i) eq_refl). f_equal. lia.
  Qed.
  Lemma slice_mid (a p r : list C) : slice (a ++ p ++ r) (List.length a) (List.length a + List.length p) = p.
  Proof.
    unfold slice. rewrite skipn_app, skipn_all, Nat.sub_diag. cbn [skipn app]. replace (_ + _ - _) with (List.length p) by lia.
    rewrite firstn_app, firstn_all, Nat.sub_diag. cbn. apply app_nil_r.
  Qed.
  Lemma segs_tokenize p s l : segs p s l -> forall a,
    map erase (tokenize_loop (a ++ p ++ s) (List.length a) (scan match_here 0 (List.length a + List.length p) s)) = l.
  Proof.
    induction 1 as [p|p c r l M _ IH|p m r l NE M _ IH]; intros a.
    - cbn [scan tokenize_loop]. rewrite app_nil_r, skipn_app, skipn_all, Nat.sub_diag. cbn [skipn app]. destruct p; reflexivity.
    - cbn [scan]. rewrite M. specialize (IH a). rewrite app_length in IH. cbn [List.length] in IH. rewrite <- app_assoc in IH. cbn [app] in IH.
      replace (Datatypes.S (List.length a + List.length p)) with (List.length a + (List.length p + 1)) by lia. exact IH.
    - destruct m as [|c m]; [destruct (NE eq_refl)|]. cbn [app scan]. change (c :: m ++ r) with ((c :: m) ++ r). rewrite M. cbn [List.length]. rewrite scan_skip by lia.
      cbn [tokenize_loop].
      rewrite slice_mid. pose proof (slice_mid (a ++ p) (c :: m) r) as X. rewrite <- app_assoc in X. rewrite app_length in X. cbn [List.length] in X. rewrite X.
      specialize (IH (a ++ p ++ c :: m)). rewrite !app_length in IH. cbn [List.length] in IH. rewrite <- !app_assoc in IH. cbn [app] in IH. rewrite Nat.add_0_r in IH.
      rewrite !map_app. cbn [app]. f_equal; [destruct p; reflexivity|]. cbn [map erase app]. f_equal. rewrite <- IH. f_equal. f_equal; [lia|]. f_equal. lia.
  Qed.
  Lemma segs_finditer s l : segs [] s l -> map erase (tokenize (finditer match_here s) s) = l.
  Proof. intros X. exact (segs_tokenize [] s l X []). Qed.
  (** pending characters before a boundary *)
  Lemma segs_pending p s l : (s = [] \/ match_here s <> None) -> segs [] s l -> segs p s (flushp p ++ l).
  Proof.
    intros B X. inversion X as [q|q c r l' M Y|q m r l' NE M Y]; subst.
    - cbn. rewrite app_nil_r. constructor.
    - destruct B as [B|B]; [discriminate|]. destruct (B M).
    - cbn [flushp app]. constructor; assumption.
  Qed.
  Lemma segs_chars u p s l : (forall u1 c u2, u = u1 ++ c :: u2 -> match_here (c :: u2 ++ s) = None) -> segs (p ++ u) s l -> segs p (u ++ s) l.
  Proof.
    revert p. induction u as [|c u IH]; intros p HU X; cbn [app].
    - rewrite app_nil_r in X. exact X.
    - apply segs_unmatched; [apply (HU [] c u eq_refl)|]. apply IH; [|rewrite <- app_assoc; exact X]. intros u1 c' u2 ->. apply (HU (c :: u1) c' u2 eq_refl).
  Qed.
End Segs.
