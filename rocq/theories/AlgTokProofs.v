(** Proofs for C135. *)
From Coq Require Import String.
From Verif Require Import Str BaseProofs ShuntingYard SYSpec SYProofs Alg AlgSpec AlgProofs AlgTokSpec.
Open Scope string_scope.
Open Scope nat_scope.
Open Scope list_scope.

Lemma match_alg_iff s n : match_alg s = Some n <-> exists t rest, In t alg_operators /\ s = t ++ rest /\ List.length t = n.
Proof.
  split.
  - destruct s as [|c s]; [discriminate|]. cbn [match_alg]. destruct (eqb_spec c (ch "u")) as [->|Nu].
    + destruct s as [|d s]; [discriminate|]. destruct (mem_reflect d (lit "+-")) as [I|]; [|discriminate]. intros [= <-]. exists [ch "u"; d], s.
      split; [|split; reflexivity]. cbn in I. destruct I as [<-|[<-|[]]]; cbn; auto.
    + destruct (mem_reflect c (lit "^*/+-()")) as [I|]; [|discriminate]. intros [= <-]. exists [c], s. split; [|split; reflexivity].
      cbn in I. repeat (destruct I as [<-|I]; [cbn; tauto|]). destruct I.
  - intros (t & rest & I & -> & <-). cbn in I. repeat (destruct I as [<-|I]; [reflexivity|]). destruct I.
Qed.
Lemma operator_ne t : In t alg_operators -> t <> [].
Proof. cbn. intros I. repeat (destruct I as [<-|I]; [discriminate|]). destruct I. Qed.
Lemma begins_iff s : begins_with_operator s <-> match_alg s <> None.
Proof.
  split.
  - intros (t & rest & I & ->). rewrite (proj2 (match_alg_iff _ (List.length t))) by (exists t, rest; auto). discriminate.
  - intros M. destruct (match_alg s) as [n|] eqn:E; [|congruence]. apply match_alg_iff in E. destruct E as (t & rest & I & -> & _). exists t, rest. auto.
Qed.
Lemma match_none s : ~ begins_with_operator s -> match_alg s = None.
Proof. intros N. destruct (match_alg s) eqn:E; [|reflexivity]. destruct N. apply begins_iff. congruence. Qed.
Lemma app_same_len {X} (a b c d : list X) : List.length a = List.length b -> a ++ c = b ++ d -> a = b /\ c = d.
Proof. revert b. induction a as [|x a IH]; intros [|y b] L E; try discriminate; [auto|]. injection L as L. injection E as -> E. destruct (IH b L E) as [-> ->]. auto. Qed.
Lemma operator_unique t t' r r' : In t alg_operators -> In t' alg_operators -> t ++ r = t' ++ r' -> t = t' /\ r = r'.
Proof.
  intros I I' E. assert (M : match_alg (t ++ r) = Some (List.length t)) by (apply match_alg_iff; exists t, r; auto).
  assert (M' : match_alg (t' ++ r') = Some (List.length t')) by (apply match_alg_iff; exists t', r'; auto).
  rewrite E in M. rewrite M in M'. injection M' as L. apply app_same_len; assumption.
Qed.

Lemma cut_head s l : cut s l -> match l with [] => s = [] | Sign _ :: _ => begins_with_operator s | Number u :: l' => u <> [] end.
Proof. intros C. inversion C as [|t r l' I C' E|u r l' NE N B C' E]; subst; [reflexivity| |exact NE]. exists t, r. auto. Qed.
Lemma cut_exists s : exists l, cut s l.
Proof.
  remember (List.length s) as n eqn:En. revert s En. induction n as [n IH] using lt_wf_ind. intros s ->.
  destruct s as [|c s]; [exists []; constructor|]. destruct (match_alg (c :: s)) as [k|] eqn:M.
  - apply match_alg_iff in M. destruct M as (t & rest & O & E & _). rewrite E. pose proof (operator_ne t O) as NE.
    destruct (IH (List.length rest)) with (s := rest) as (l & L); [rewrite E, app_length; destruct t; [congruence|cbn; lia]|reflexivity|].
    exists (Sign t :: l). constructor; assumption.
  - assert (NB : ~ begins_with_operator (c :: s)) by (rewrite begins_iff, M; congruence).
    destruct (IH (List.length s)) with (s := s) as (l & L); [cbn; lia|reflexivity|]. inversion L as [E|t r l' I L' E|u r l' NE N B L' E].
    + exists [Number [c]]. apply (cut_number [c] [] []); [discriminate| |auto|constructor]. subst s. intros u1 u2 E2 N2. destruct u1 as [|x u1]; cbn in E2; [subst u2; exact NB|].
      injection E2 as _ E2. symmetry in E2. apply app_eq_nil in E2. destruct E2 as [_ ->]. congruence.
    + exists (Number [c] :: l). rewrite E. replace (Sign t :: l') with l by congruence. apply (cut_number [c] s l); [discriminate| |right; rewrite <- E; exists t, r; auto|exact L].
      intros u1 u2 E2 N2. destruct u1 as [|x u1]; cbn in E2; [subst u2; exact NB|]. injection E2 as _ E2. symmetry in E2. apply app_eq_nil in E2. destruct E2 as [_ ->]. congruence.
    + exists (Number (c :: u) :: l'). change (c :: u ++ r) with ((c :: u) ++ r). apply cut_number; [discriminate| |exact B|exact L'].
      intros u1 u2 E2 N2. destruct u1 as [|x u1]; cbn in E2; [subst u2; cbn [app]; rewrite E; exact NB|]. injection E2 as _ E2. apply (N u1 u2 E2 N2).
Qed.
Lemma cut_nil l : cut [] l -> l = [].
Proof.
  intros C. (remember (@nil char) as s0 eqn:E0; destruct C as [|t s l I C|u s l NE N B C]; [reflexivity| |]; apply app_eq_nil in E0; destruct E0 as [E0 _]).
  - destruct (operator_ne _ I E0).
  - destruct (NE E0).
Qed.
Lemma cut_unique s l : cut s l -> forall l', cut s l' -> l' = l.
Proof.
  induction 1 as [|t s l I C IH|u s l NE N B C IH]; intros l' C'.
  - apply cut_nil, C'.
  - inversion C' as [E|t2 r l2 I2 C2 E|u r l2 NE N B C2 E].
    + symmetry in E. apply app_eq_nil in E. destruct E as [-> _]. destruct (operator_ne _ I eq_refl).
    + destruct (operator_unique _ _ _ _ I2 I E) as [-> ->]. f_equal. apply IH. exact C2.
    + destruct (N [] u eq_refl NE). exists t, s. auto.
  - inversion C' as [E|t2 r l2 I2 C2 E|u2 r l2 NE2 N2 B2 C2 E].
    + symmetry in E. apply app_eq_nil in E. destruct E as [-> _]. congruence.
    + destruct (N [] u eq_refl NE). exists t2, r. auto.
    + assert (X : forall u s u' s', u ++ s = u' ++ s' -> (forall u1 u2, u' = u1 ++ u2 -> u2 <> [] -> ~ begins_with_operator (u2 ++ s')) -> (s = [] \/ begins_with_operator s) ->
        List.length u' <= List.length u).
      { clear. intros u s u' s' E N B. destruct (Nat.le_gt_cases (List.length u') (List.length u)) as [L|L]; [exact L|]. exfalso.
        assert (Eu : u' = u ++ skipn (List.length u) u').
        { rewrite <- (firstn_skipn (List.length u) u') at 1. f_equal. pose proof (f_equal (firstn (List.length u)) E) as F.
          rewrite !firstn_app, Nat.sub_diag, firstn_all, firstn_O, app_nil_r in F. replace (List.length u - List.length u') with 0 in F by lia. rewrite firstn_O, app_nil_r in F. congruence. }
        set (u2 := skipn (List.length u) u') in *. assert (N2 : u2 <> []) by (intros E2; rewrite E2, app_nil_r in Eu; rewrite Eu in L; lia).
        apply (N u u2 Eu N2). rewrite Eu, <- app_assoc in E. apply app_inv_head in E. destruct B as [->|B]; [|rewrite <- E; exact B].
        destruct u2; [congruence|discriminate]. }
      assert (L : List.length u2 = List.length u).
      { apply Nat.le_antisymm; [apply (X u s u2 r); auto|apply (X u2 r u s); auto]. }
      destruct (app_same_len _ _ _ _ L E) as [-> ->]. f_equal. apply IH. exact C2.
Qed.
Lemma cut_text s l : cut s l -> concat (map apiece_text l) = s.
Proof. induction 1 as [|t s l I C IH|u s l NE N B C IH]; cbn [map concat apiece_text]; rewrite ?IH; reflexivity. Qed.

Definition aseg (p : apiece) : bool * str := match p with Number u => (false, u) | Sign t => (true, t) end.
Lemma cut_segs s l : cut s l -> segs match_alg [] s (map aseg l).
Proof.
  induction 1 as [|t s l I C IH|u s l NE N B C IH]; cbn [map aseg]; [constructor| |].
  - apply (segs_matched match_alg [] t s (map aseg l)); [apply operator_ne, I|apply match_alg_iff; exists t, s; auto|exact IH].
  - apply segs_chars.
    + intros u1 c u2 E. apply match_none. apply (N u1 (c :: u2) E). discriminate.
    + cbn [app]. change ((false, u) :: map aseg l) with ([(false, u)] ++ map aseg l). replace [(false, u)] with (flushp u) by (destruct u; [congruence|reflexivity]).
      apply segs_pending; [|exact IH]. destruct B as [B|B]; [left; exact B|right; apply begins_iff, B].
Qed.
Lemma cut_operators s l t : cut s l -> In (Sign t) l -> In t alg_operators.
Proof. induction 1 as [|t' s l I C IH|u s l NE N B C IH]; intros X.
  - destruct X.
  - destruct X as [X|X]; [injection X as <-; exact I|apply IH, X].
  - destruct X as [X|X]; [discriminate|apply IH, X].
 Qed.

Section V.
  Context {V : Type} `{EqDec V} (float : str -> res V).
  Definition flag (p : option apiece) : bool := match p with None => true | Some (Number _) => false | Some (Sign t) => negb (eqb t (lit ")")) end.
  Lemma flag_iff p : flag p = false <-> ends_an_operand p.
  Proof.
    unfold ends_an_operand. destruct p as [[u|t]|]; cbn.
    - split; [left; eauto|reflexivity].
    - rewrite negb_false_iff, eqb_eq. split; [intros ->; auto|]. intros [(u & X)|X]; [discriminate|congruence].
    - split; [discriminate|]. intros [(u & X)|X]; discriminate.
  Qed.
  (** what one piece does *)
  Definition piece_step (p : option apiece) (q : apiece) : res (atok V) :=
    match q with
    | Number u => rbind (float u) (fun v => Ok (ANum v))
    | Sign t => if flag p && negb (mem t [lit "("; lit ")"]) then
        if eqb t (lit "+") then Ok (AStr (lit "u+")) else if eqb t (lit "-") then Ok (AStr (lit "u-")) else Raise RuntimeError
        else Ok (AStr t)
    end.
  Lemma seg_step ex p q : alg_seg float (ex, flag p) (aseg q) = rbind (piece_step p q) (fun a => Ok (ex ++ [a], flag (Some q))).
  Proof.
    destruct q as [u|t]; unfold alg_seg; cbn [aseg fst snd alg_event piece_step flag].
    - rewrite rbind_assoc. apply rbind_ext. reflexivity.
    - match goal with |- (if ?b then _ else _) = _ => change b with (flag p && negb (mem t [lit "("; lit ")"])) end.
      destruct (flag p && negb (mem t [lit "("; lit ")"])); [|reflexivity].
      match goal with |- (if ?b then _ else _) = _ => change b with (eqb t (lit "+")) end. destruct (eqb_spec t (lit "+")) as [->|]; [reflexivity|].
      match goal with |- (if ?b then _ else _) = _ => change b with (eqb t (lit "-")) end. destruct (eqb_spec t (lit "-")) as [->|]; reflexivity.
  Qed.
  Lemma paren_mem t : mem t [lit "("; lit ")"] = true <-> parenthesis t.
  Proof. rewrite mem_spec. unfold parenthesis. cbn. intuition congruence. Qed.
  Lemma step_ok p q a l r : piece_step p q = Ok a -> alg_tokens float (Some q) l r -> alg_tokens float p (q :: l) (a :: r).
  Proof.
    intros E T. destruct q as [u|t]; cbn [piece_step] in E.
    - destruct (float u) as [v|] eqn:F; [|discriminate]. injection E as <-. apply at_number; assumption.
    - destruct (flag p) eqn:Fp; [destruct (mem t [lit "("; lit ")"]) eqn:M|]; cbn [andb negb] in E.
      + injection E as <-. apply at_kept; [left; apply paren_mem, M|exact T].
      + assert (N : ~ ends_an_operand p) by (rewrite <- flag_iff, Fp; discriminate).
        destruct (eqb_spec t (lit "+")) as [->|N1]; [injection E as <-; apply (at_unary float p (lit "+")); auto|].
        destruct (eqb_spec t (lit "-")) as [->|N2]; [injection E as <-; apply (at_unary float p (lit "-")); auto|discriminate].
      + injection E as <-. apply at_kept; [right; apply flag_iff, Fp|exact T].
  Qed.
  Lemma step_inv p q l R : alg_tokens float p (q :: l) R -> exists a r, R = a :: r /\ piece_step p q = Ok a /\ alg_tokens float (Some q) l r.
  Proof.
    intros T. inversion T as [|? u v ? r F T'|? t ? r K T'|? t ? r N S T']; subst; eexists; exists r; (split; [reflexivity|split; [|exact T']]); cbn [piece_step].
    - rewrite F. reflexivity.
    - destruct K as [K|K]; [apply paren_mem in K; rewrite K, andb_false_r; reflexivity|apply flag_iff in K; rewrite K; reflexivity].
    - destruct (flag p) eqn:Fp; [|destruct N; apply flag_iff, Fp]. destruct S as [->| ->]; reflexivity.
  Qed.
  Lemma step_raise p q ex : piece_step p q = Raise ex <-> bad_piece float p q ex.
  Proof.
    destruct q as [u|t]; cbn [piece_step bad_piece].
    - destruct (float u); cbn; split; congruence.
    - destruct (flag p) eqn:Fp; [destruct (mem t [lit "("; lit ")"]) eqn:M|]; cbn [andb negb].
      + split; [discriminate|]. intros (X & _). destruct X. apply paren_mem, M.
      + assert (N : ~ ends_an_operand p) by (rewrite <- flag_iff, Fp; discriminate). assert (NP : ~ parenthesis t) by (rewrite <- paren_mem, M; discriminate).
        destruct (eqb_spec t (lit "+")) as [->|N1]; [split; [discriminate|tauto]|]. destruct (eqb_spec t (lit "-")) as [->|N2]; [split; [discriminate|tauto]|].
        split; [intros [= <-]; auto|intros (_ & _ & _ & _ & ->); reflexivity].
      + split; [discriminate|]. intros (_ & X & _). destruct X. apply flag_iff, Fp.
  Qed.
  Lemma segs_ok l : forall p ex R b, alg_segs float (ex, flag p) (map aseg l) = Ok (R, b) <-> exists r, R = ex ++ r /\ alg_tokens float p l r /\ b = flag (last_piece p l).
  Proof.
    induction l as [|q l IH]; intros p ex R b; cbn [map alg_segs].
    - split; [intros [= <- <-]; exists []; rewrite app_nil_r; repeat split; constructor|]. intros (r & -> & T & ->). inversion T. rewrite app_nil_r. reflexivity.
    - rewrite seg_step, rbind_assoc. assert (LP : last_piece p (q :: l) = last_piece (Some q) l).
      { unfold last_piece. cbn [rev]. destruct (rev l); reflexivity. }
      rewrite LP. destruct (piece_step p q) as [a|e] eqn:E; cbn [rbind].
      + rewrite IH. split.
        * intros (r & -> & T & ->). exists (a :: r). rewrite <- app_assoc. split; [reflexivity|]. split; [apply step_ok; assumption|reflexivity].
        * intros (r & -> & T & ->). apply step_inv in T. destruct T as (a' & r' & -> & E' & T). rewrite E in E'. injection E' as <-. exists r'. rewrite <- app_assoc. auto.
      + split; [discriminate|]. intros (r & _ & T & _). apply step_inv in T. destruct T as (a' & r' & _ & E' & _). congruence.
  Qed.
  Lemma segs_raise l : forall p ex0 ex, alg_segs float (ex0, flag p) (map aseg l) = Raise ex <->
    exists l1 q l2 r, l = l1 ++ q :: l2 /\ alg_tokens float p l1 r /\ bad_piece float (last_piece p l1) q ex.
  Proof.
    induction l as [|q l IH]; intros p ex0 ex; cbn [map alg_segs].
    - split; [discriminate|]. intros (l1 & q & l2 & r & E & _). destruct l1; discriminate.
    - rewrite seg_step, rbind_assoc. assert (LP : forall l, last_piece p (q :: l) = last_piece (Some q) l).
      { intros l'. unfold last_piece. cbn [rev]. destruct (rev l'); reflexivity. }
      destruct (piece_step p q) as [a|e] eqn:E; cbn [rbind].
      + rewrite IH. split.
        * intros (l1 & q' & l2 & r & -> & T & B). exists (q :: l1), q', l2, (a :: r). split; [reflexivity|]. split; [apply step_ok; assumption|]. rewrite LP. exact B.
        * intros (l1 & q' & l2 & r & El & T & B). destruct l1 as [|q1 l1].
          -- cbn in El. injection El as <- <-. apply step_raise in B. change (last_piece p []) with p in B. congruence.
          -- cbn in El. injection El as <- ->. apply step_inv in T. destruct T as (a' & r' & -> & _ & T). rewrite LP in B. exists l1, q', l2, r'. auto.
      + split.
        * intros [= <-]. exists [], q, l, []. split; [reflexivity|]. split; [constructor|]. apply step_raise. exact E.
        * intros (l1 & q' & l2 & r & El & T & B). destruct l1 as [|q1 l1].
          -- cbn in El. injection El as <- <-. apply step_raise in B. change (last_piece p []) with p in B. congruence.
          -- cbn in El. injection El as <- ->. apply step_inv in T. destruct T as (a' & r' & _ & E' & _). congruence.
  Qed.
  Lemma tokenizer_cut w l : cut (filter (fun c => negb (isspace c)) w) l -> tokenizer_alg float w = rbind (alg_segs float ([], flag None) (map aseg l)) (fun s => Ok (fst s)).
  Proof. intros C. unfold tokenizer_alg. rewrite alg_events_segs, (segs_finditer _ _ _ (cut_segs _ _ C)). reflexivity. Qed.
End V.
