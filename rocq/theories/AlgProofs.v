(** Lemmas on the evaluation of arithmetic expressions. *)
From Coq Require Import String.
From Verif Require Import Str BaseProofs ShuntingYard SYSpec SYProofs Alg AlgSpec.
Open Scope string_scope.
#[local] Arguments dkeys : simpl never.
#[local] Open Scope list_scope.

Fixpoint sign_free (e : aexp) : bool :=
  match e with Num _ => true | ParA x | Neg x => sign_free x | Pos _ => false | BinA l _ r => sign_free l && sign_free r end.
Lemma sign_free_spec e : sign_free e = true <-> no_plus_sign e.
Proof. induction e; cbn; rewrite ?andb_true_iff; intuition discriminate. Qed.

Section AlgP.
  Context {V : Type} `{EqDec V} (float : str -> res V) (add sub mul div pow : V -> V -> res V) (neg : V -> res V).
  Notation tok := (atok V).
  Notation T x := (@AStr V (lit x)).
  Notation ops := (@map_operators_alg V).
  Notation lp := (T "(").
  Notation rp := (T ")").

  Definition op_tok (o : aop) : tok := AStr (op_text o).
  Fixpoint tree_of (e : aexp) : res (tree (T := tok)) :=
    match e with
    | Num s => rbind (float s) (fun v => Ok (Leaf (ANum v)))
    | BinA l o r => rbind (tree_of l) (fun l => rbind (tree_of r) (fun r => Ok (Bin l (op_tok o) r)))
    | Neg x => rbind (tree_of x) (fun x => Ok (Pre (T "u-") x))
    | Pos x => rbind (tree_of x) (fun x => Ok (Pre (T "u+") x))
    | ParA x => rbind (tree_of x) (fun x => Ok (Par x))
    end.

  (** *** Tokens *)
  Fixpoint segs_of (e : aexp) : list (bool * str) :=
    match e with
    | Num s => [(false, s)]
    | BinA l o r => segs_of l ++ (true, op_text o) :: segs_of r
    | Neg x => (true, lit "-") :: segs_of x
    | Pos x => (true, lit "+") :: segs_of x
    | ParA x => (true, lit "(") :: segs_of x ++ [(true, lit ")")]
    end.
  Definition boundary (s : str) : Prop := s = [] \/ match_alg s <> None.
  Lemma match_op o s : match_alg (op_text o ++ s) = Some 1.
  Proof. destruct o; reflexivity. Qed.
  Lemma boundary_op o s : boundary (op_text o ++ s).
  Proof. right. rewrite match_op. discriminate. Qed.
  Lemma segs_op x l s : List.length x = 1 -> match_alg (x ++ s) = Some 1 -> segs match_alg [] s l -> segs match_alg [] (x ++ s) ((true, x) :: l).
  Proof. intros E M X. apply (segs_matched match_alg [] x s l); [destruct x; discriminate|rewrite E; exact M|exact X]. Qed.
  Lemma nomatch c u : ~ In c (lit "^*/+-()u") -> match_alg (c :: u) = None.
  Proof.
    intros N. unfold match_alg. destruct (eqb_spec c (ch "u")) as [->|Nu]; [destruct N; cbv; tauto|].
    destruct (mem c (lit "^*/+-()")) eqn:M; [|reflexivity]. apply mem_spec in M. destruct N. revert M. cbv. tauto.
  Qed.
  Lemma segs_text e s l : grammar e -> boundary s -> segs match_alg [] s l -> segs match_alg [] (text e ++ s) (segs_of e ++ l).
  Proof.
    revert s l. induction e as [t|e1 IH1 o e2 IH2|x IH|x IH|x IH]; intros s l G B X; cbn [text segs_of].
    - destruct G as (NE & G). apply segs_chars.
      + intros u1 c u2 E. apply nomatch. apply G. rewrite E. apply in_app_iff. right. left. reflexivity.
      + replace ([(false, t)]) with (flushp t) by (destruct t; [destruct (NE eq_refl)|reflexivity]). apply segs_pending; assumption.
    - rewrite <- !app_assoc. cbn [app]. assert (G' : grammar e1 /\ grammar e2) by (destruct o; cbn in G; tauto). destruct G' as (G1 & G2).
      apply IH1; [exact G1|apply boundary_op|]. apply segs_op; [destruct o; reflexivity|apply match_op|]. apply IH2; assumption.
    - cbn [app]. rewrite <- app_assoc. apply segs_op; [reflexivity|reflexivity|]. apply IH; [apply G|exact B|exact X].
    - cbn [app]. rewrite <- app_assoc. apply segs_op; [reflexivity|reflexivity|]. apply IH; [apply G|exact B|exact X].
    - rewrite <- !app_assoc. cbn [app]. rewrite <- !app_assoc. apply segs_op; [reflexivity|reflexivity|]. apply IH; [apply G|right; discriminate|].
      apply segs_op; [reflexivity|reflexivity|]. exact X.
  Qed.

  Definition alg_seg (s : list tok * bool) (e : bool * str) : res (list tok * bool) :=
    alg_event float s (if fst e then OnMatched (snd e) 0 0 else OnUnmatched (snd e) 0 None).
  Fixpoint alg_segs (s : list tok * bool) (l : list (bool * str)) : res (list tok * bool) :=
    match l with [] => Ok s | e :: l' => rbind (alg_seg s e) (fun s => alg_segs s l') end.
  Lemma alg_events_segs l s : alg_events float s l = alg_segs s (map erase l).
  Proof. revert s. induction l as [|e l IH]; intros s; cbn; [reflexivity|]. assert (E : alg_event float s e = alg_seg s (erase e)) by (destruct s, e; reflexivity). rewrite E. apply rbind_ext, IH. Qed.
  Lemma alg_segs_app s l1 l2 : alg_segs s (l1 ++ l2) = rbind (alg_segs s l1) (fun s => alg_segs s l2).
  Proof. revert s. induction l1 as [|e l1 IH]; intros s; cbn; [reflexivity|]. rewrite rbind_assoc. apply rbind_ext. exact IH. Qed.

  Lemma alg_segs_of e ex : alg_segs (ex, true) (segs_of e) = rbind (tree_of e) (fun t => Ok (ex ++ infix lp rp t, false)).
  Proof.
    revert ex. induction e as [t|e1 IH1 o e2 IH2|x IH|x IH|x IH]; intros ex; cbn [segs_of tree_of].
    - cbn [alg_segs]. unfold alg_seg. cbn [fst snd alg_event]. rewrite !rbind_assoc. apply rbind_ext. reflexivity.
    - rewrite alg_segs_app, IH1, !rbind_assoc. apply rbind_ext. intros t1. cbn [rbind alg_segs].
      assert (E : forall l, alg_seg (l, false) (true, op_text o) = Ok (l ++ [op_tok o], true)) by (intros l; destruct o; reflexivity). rewrite E. cbn [rbind]. rewrite IH2, rbind_assoc.
      apply rbind_ext. intros t2. cbn [infix rbind]. rewrite <- !app_assoc. reflexivity.
    - cbn [alg_segs]. change (alg_seg (ex, true) (true, lit "-")) with (Ok (ex ++ [T "u-"], true)). cbn [rbind]. rewrite IH, rbind_assoc. apply rbind_ext. intros t. cbn [rbind infix]. rewrite <- app_assoc. reflexivity.
    - cbn [alg_segs]. change (alg_seg (ex, true) (true, lit "+")) with (Ok (ex ++ [T "u+"], true)). cbn [rbind]. rewrite IH, rbind_assoc. apply rbind_ext. intros t. cbn [rbind infix]. rewrite <- app_assoc. reflexivity.
    - cbn [alg_segs]. change (alg_seg (ex, true) (true, lit "(")) with (Ok (ex ++ [lp], true)). cbn [rbind]. rewrite alg_segs_app, IH, !rbind_assoc. apply rbind_ext. intros t. cbn [rbind infix].
      cbn [alg_segs]. unfold alg_seg. cbn [fst snd]. unfold alg_event. cbn [andb]. change (negb (eqb (lit ")") (lit ")"))) with false. cbn [rbind]. rewrite <- !app_assoc. reflexivity.
  Qed.
  Lemma tokenizer_text w e : filter (fun c => negb (isspace c)) w = text e -> grammar e ->
    tokenizer_alg float w = rbind (tree_of e) (fun t => Ok (infix lp rp t)).
  Proof.
    intros E G. unfold tokenizer_alg. rewrite E, alg_events_segs.
    pose proof (segs_text e [] [] G (or_introl eq_refl) (segs_end match_alg [])) as X. rewrite !app_nil_r in X.
    rewrite (segs_finditer _ _ _ X), alg_segs_of, rbind_assoc. apply rbind_ext. reflexivity.
  Qed.

  (** *** Fits *)
  Definition minprec (n : nat) : nat := match n with 0 | 1 => 4 | 2 | 3 => 3 | _ => 2 end.
  Definition has (o : tok) (p : Op) : Prop := dget ops o = Some p.
  Lemma has_op o : exists p, has (op_tok o) p /\ precedence p = match o with OPow => 4 | OMul | ODiv => 3 | OAdd | OSub => 2 end /\ left p = match o with OPow => false | _ => true end.
  Proof. destruct o; eexists; (split; [reflexivity|split; reflexivity]). Qed.
  Lemma op_operator o : operator lp rp ops (op_tok o).
  Proof. split; [destruct o; discriminate|]. split; [destruct o; discriminate|]. destruct o; cbv; tauto. Qed.
  Lemma binds_num o1 o2 p1 p2 : has o1 p1 -> has o2 p2 -> (binds_left ops o1 o2 <-> precedence p2 < precedence p1 \/ (precedence p1 = precedence p2 /\ left p2 = true)).
  Proof.
    intros H1 H2. split.
    - intros (q1 & q2 & E1 & E2 & X). unfold has in *. congruence || (rewrite H1 in E1; rewrite H2 in E2; injection E1 as <-; injection E2 as <-; exact X).
    - intros X. exists p1, p2. auto.
  Qed.

  Definition borders (e : aexp) (t : tree (T := tok)) : Prop :=
    (lvl e = 0 -> left_border t = [] /\ right_border t = []) /\
    (forall o, In o (right_border t) -> exists p, has o p /\ minprec (lvl e) <= precedence p) /\
    (forall o, In o (left_border t) -> exists p, has o p /\ minprec (lvl e) <= precedence p /\ (lvl e <= 2 -> left p = false)).

  Lemma sign_fits e s t : (s = T "u-" \/ s = T "u+") -> fits lp rp ops t /\ borders e t -> lvl e <= 2 ->
    fits lp rp ops (Pre s t) /\ borders (Neg e) (Pre s t).
  Proof.
    intros Es (F & B0 & BR & BL) L. assert (exists p, has s p /\ precedence p = 3 /\ left p = false) as (p & Hp & Pp & Lp) by (destruct Es as [->| ->]; eexists; (split; [reflexivity|split; reflexivity])).
    split; [split; [|split; [exact F|]]|].
    - destruct Es as [->| ->]; (split; [discriminate|split; [discriminate|cbv; tauto]]).
    - intros o I X. destruct (BL o I) as (q & Hq & Pq & Lq). apply (binds_num _ _ _ _ Hp Hq) in X. destruct X as [X|(_ & X)]; [|rewrite Lq in X by exact L; discriminate].
      destruct (lvl e) as [|[|[|]]]; cbn in Pq; lia.
    - split; [discriminate|]. split.
      + intros o [<-|I]; [exists p; split; [exact Hp|cbn; lia]|]. destruct (BR o I) as (q & Hq & Pq). exists q. split; [exact Hq|]. destruct (lvl e) as [|[|[|]]]; cbn in *; lia.
      + intros o [<-|[]]. exists p. split; [exact Hp|]. split; [cbn; lia|]. auto.
  Qed.

  Lemma tree_of_fits e t : tree_of e = Ok t -> grammar e -> fits lp rp ops t /\ borders e t.
  Proof.
    revert t. induction e as [s|e1 IH1 o e2 IH2|x IH|x IH|x IH]; intros t Et G; cbn [tree_of] in Et.
    - destruct (float s) as [v|]; [|discriminate]. injection Et as <-. split.
      + split; [discriminate|]. split; [discriminate|]. intros I. cbv in I. intuition discriminate.
      + split; [auto|]. split; intros o [].
    - destruct (tree_of e1) as [t1|]; [|discriminate]. destruct (tree_of e2) as [t2|]; [|discriminate]. injection Et as <-.
      assert (G' : grammar e1 /\ grammar e2) by (destruct o; cbn in G; tauto). destruct G' as (G1 & G2).
      destruct (IH1 t1 eq_refl G1) as (F1 & B10 & B1R & B1L), (IH2 t2 eq_refl G2) as (F2 & B20 & B2R & B2L). clear IH1 IH2.
      destruct (has_op o) as (p & Hp & Pp & Lp).
      assert (Lv : match o with OPow => lvl e1 = 0 /\ lvl e2 <= 1 | OMul | ODiv => lvl e1 <= 3 /\ lvl e2 <= 2 | _ => lvl e2 <= 3 end) by (destruct o; cbn in G; tauto).
      split; [split; [exact F1|]; split; [apply op_operator|]; split; [exact F2|]; split|].
      + intros o' I. destruct (B1R o' I) as (q & Hq & Pq). apply (binds_num _ _ _ _ Hq Hp). rewrite Pp, Lp.
        destruct o.
        * destruct (lvl e1) as [|[|[|[|]]]]; cbn in Pq; lia.
        * destruct (lvl e1) as [|[|[|[|]]]]; cbn in Pq; lia.
        * destruct (lvl e1) as [|[|[|[|]]]]; cbn in Pq; lia.
        * destruct (lvl e1) as [|[|[|[|]]]]; cbn in Pq; lia.
        * destruct Lv as (Lv & _). destruct (B10 Lv) as (_ & Z). rewrite Z in I. destruct I.
      + intros o' I X. destruct (B2L o' I) as (q & Hq & Pq & Lq). apply (binds_num _ _ _ _ Hp Hq) in X. rewrite Pp in X.
        destruct o; [| |destruct Lv as (_ & Lv); rewrite (Lq ltac:(lia)) in X|destruct Lv as (_ & Lv); rewrite (Lq ltac:(lia)) in X|destruct Lv as (_ & Lv); rewrite (Lq ltac:(lia)) in X];
          destruct (lvl e2) as [|[|[|[|]]]]; cbn in Pq; try lia; destruct X as [X|(X & Y)]; try lia; try discriminate.
      + split; [destruct o; discriminate|]. split.
        * cbn [right_border]. intros o' [<-|I]; [exists p; split; [exact Hp|]; rewrite Pp; destruct o; cbn; lia|].
          destruct (B2R o' I) as (q & Hq & Pq). exists q. split; [exact Hq|]. destruct o, (lvl e2) as [|[|[|[|]]]]; cbn in *; lia.
        * cbn [left_border]. intros o' I. apply in_app_iff in I. destruct I as [I|[<-|[]]].
          -- destruct (B1L o' I) as (q & Hq & Pq & Lq). exists q. split; [exact Hq|]. split.
             ++ destruct o, (lvl e1) as [|[|[|[|]]]]; cbn in *; lia.
             ++ intros L. destruct o; cbn in L; try lia. apply Lq. lia.
          -- exists p. split; [exact Hp|]. split; [rewrite Pp; destruct o; cbn; lia|]. intros L. destruct o; cbn in L; try lia. exact Lp.
    - destruct (tree_of x) as [t1|]; [|discriminate]. injection Et as <-. destruct G as (G & L). apply sign_fits; [auto|apply IH; auto|exact L].
    - destruct (tree_of x) as [t1|]; [|discriminate]. injection Et as <-. destruct G as (G & L). apply (sign_fits x); [auto|apply IH; auto|exact L].
    - destruct (tree_of x) as [t1|]; [|discriminate]. injection Et as <-. destruct (IH t1 eq_refl G) as (F & _). split; [exact F|].
      split; [auto|]. split; intros o [].
  Qed.

  (** *** Evaluation *)
  Notation val := (value float add sub mul div pow neg).
  Notation pushA := (push_alg add sub mul div pow neg).
  Definition val' (e : aexp) : option V := if sign_free e then val e else None.
  Definition opf (o : aop) : V -> V -> res V := match o with OAdd => add | OSub => sub | OMul => mul | ODiv => div | OPow => pow end.

  Lemma push_num out v : pushA out (ANum v) = Ok (ANum v :: out).
  Proof. reflexivity. Qed.
  Lemma push_op o out x y : pushA (ANum y :: ANum x :: out) (op_tok o) = rbind (opf o x y) (fun v => Ok (ANum v :: out)).
  Proof. destruct o; cbn; match goal with |- context [rbind (?f x y) _] => destruct (f x y) end; reflexivity. Qed.
  Lemma push_neg out x : pushA (ANum x :: out) (T "u-") = rbind (neg x) (fun v => Ok (ANum v :: out)).
  Proof. cbn. destruct (neg x); reflexivity. Qed.

  Lemma eval_tree e t : tree_of e = Ok t ->
    match val' e with
    | Some v => forall out, pushes pushA out (postfix t) = Ok (ANum v :: out)
    | None => forall out, exists ex, pushes pushA out (postfix t) = Raise ex
    end.
  Proof.
    unfold val'. revert t. induction e as [s|e1 IH1 o e2 IH2|x IH|x IH|x IH]; intros t Et; cbn [tree_of] in Et.
    - cbn. destruct (float s) as [v|]; [|discriminate]. injection Et as <-. intros out. reflexivity.
    - destruct (tree_of e1) as [t1|]; [|discriminate]. destruct (tree_of e2) as [t2|]; [|discriminate]. injection Et as <-.
      specialize (IH1 t1 eq_refl). specialize (IH2 t2 eq_refl). cbn [sign_free value postfix].
      destruct (sign_free e1); cbn [andb]; [|intros out; rewrite pushes_app; destruct (IH1 out) as (ex & ->); exists ex; reflexivity].
      destruct (val e1) as [x|].
      2:{ destruct (sign_free e2); intros out; rewrite pushes_app; destruct (IH1 out) as (ex & ->); exists ex; reflexivity. }
      destruct (sign_free e2).
      2:{ intros out. rewrite pushes_app, IH1. cbn [rbind]. rewrite pushes_app. destruct (IH2 (ANum x :: out)) as (ex & ->). exists ex. reflexivity. }
      destruct (val e2) as [y|].
      2:{ intros out. rewrite pushes_app, IH1. cbn [rbind]. rewrite pushes_app. destruct (IH2 (ANum x :: out)) as (ex & ->). exists ex. reflexivity. }
      assert (E : forall out, pushes pushA out (postfix t1 ++ postfix t2 ++ [op_tok o]) = rbind (opf o x y) (fun v => Ok (ANum v :: out))).
      { intros out. rewrite pushes_app, IH1. cbn [rbind]. rewrite pushes_app, IH2. cbn [rbind pushes]. rewrite push_op, rbind_assoc. apply rbind_ext. reflexivity. }
      fold (opf o). destruct (opf o x y) as [v|ex]; intros out; rewrite E; cbn; [reflexivity|exists ex; reflexivity].
    - destruct (tree_of x) as [t1|]; [|discriminate]. injection Et as <-. specialize (IH t1 eq_refl). cbn [sign_free value postfix].
      destruct (sign_free x); [|intros out; rewrite pushes_app; destruct (IH out) as (ex & ->); exists ex; reflexivity].
      destruct (val x) as [v|]; [|intros out; rewrite pushes_app; destruct (IH out) as (ex & ->); exists ex; reflexivity].
      assert (E : forall out, pushes pushA out (postfix t1 ++ [T "u-"]) = rbind (neg v) (fun v => Ok (ANum v :: out))).
      { intros out. rewrite pushes_app, IH. cbn [rbind pushes]. rewrite push_neg, rbind_assoc. apply rbind_ext. reflexivity. }
      destruct (neg v) as [w|ex]; intros out; rewrite E; cbn; [reflexivity|exists ex; reflexivity].
    - destruct (tree_of x) as [t1|]; [|discriminate]. injection Et as <-. specialize (IH t1 eq_refl). cbn [sign_free postfix].
      intros out. rewrite pushes_app. destruct (pushes pushA out (postfix t1)) as [[|u out']|ex]; cbn [rbind pushes]; [exists IndexError; reflexivity| |exists ex; reflexivity].
      exists ValueError. reflexivity.
    - destruct (tree_of x) as [t1|]; [|discriminate]. injection Et as <-. exact (IH t1 eq_refl).
  Qed.
  Lemma tree_of_None e ex : tree_of e = Raise ex -> val e = None.
  Proof.
    revert ex. induction e as [s|e1 IH1 o e2 IH2|x IH|x IH|x IH]; intros ex; cbn [tree_of value].
    - destruct (float s); [discriminate|reflexivity].
    - destruct (tree_of e1) as [|ex1]; cbn [rbind].
      + destruct (tree_of e2) as [|ex2]; [discriminate|]. intros _. rewrite (IH2 ex2 eq_refl). destruct (val e1); reflexivity.
      + intros _. rewrite (IH1 ex1 eq_refl). reflexivity.
    - destruct (tree_of x) as [|ex1]; [discriminate|]. intros _. rewrite (IH ex1 eq_refl). reflexivity.
    - destruct (tree_of x) as [|ex1]; [discriminate|]. intros _. apply (IH ex1 eq_refl).
    - destruct (tree_of x) as [|ex1]; [discriminate|]. intros _. apply (IH ex1 eq_refl).
  Qed.

  Lemma compute_text w e : filter (fun c => negb (isspace c)) w = text e -> grammar e ->
    match val' e with
    | Some v => shunting_yard_compute float add sub mul div pow neg w = Ok (ANum v)
    | None => exists ex, shunting_yard_compute float add sub mul div pow neg w = Raise ex
    end.
  Proof.
    intros E G. unfold shunting_yard_compute. rewrite (tokenizer_text w e E G).
    destruct (tree_of e) as [t|ex] eqn:Et.
    - cbn [rbind]. destruct (tree_of_fits e t Et G) as (F & _).
      rewrite (shunting_yard_tree lp rp ops) by (assumption || discriminate || (cbv; intuition discriminate)).
      pose proof (eval_tree e t Et) as X. destruct (val' e) as [v|]; [rewrite X; reflexivity|]. destruct (X []) as (ex & ->). exists ex. reflexivity.
    - assert (Z : val' e = None) by (unfold val'; rewrite (tree_of_None e ex Et); destruct (sign_free e); reflexivity). rewrite Z. exists ex. reflexivity.
  Qed.
End AlgP.
