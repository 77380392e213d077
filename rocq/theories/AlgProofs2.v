(** Lemmas on the results of shunting_yard_compute on any text. *)
From Coq Require Import String.
From Verif Require Import Str ShuntingYard SYProofs Alg AlgProofs Base BaseProofs.
Open Scope string_scope.
Open Scope nat_scope.
Open Scope list_scope.

Section K.
  Context {V : Type} `{EqDec V}.
  Variable float : str -> res V.
  Variables add sub mul div pow : V -> V -> res V.
  Variable neg : V -> res V.
  Notation tok := (atok V).
  Notation pushA := (push_alg add sub mul div pow neg).
  Notation ops := (@map_operators_alg V).

  (** the texts that match_alg recognises *)
  Definition pieces : list str := [lit "u+"; lit "u-"; lit "^"; lit "*"; lit "/"; lit "+"; lit "-"; lit "("; lit ")"].
  Lemma match_alg_cases s : match_alg s = None \/ exists m r, In m pieces /\ s = m ++ r /\ match_alg (m ++ r) = Some (List.length m).
  Proof.
    destruct s as [|c s]; [left; reflexivity|]. unfold match_alg at 1. destruct (eqb_spec c (ch "u")) as [->|Nu].
    - destruct s as [|d s]; [left; reflexivity|]. destruct (mem_reflect d (lit "+-")) as [M|M]; [|left; reflexivity]. right.
      destruct M as [<-|[<-|[]]]; [exists (lit "u+"), s|exists (lit "u-"), s]; (split; [cbn; tauto|]); split; reflexivity.
    - destruct (mem_reflect c (lit "^*/+-()")) as [M|M]; [|left; reflexivity]. right. exists [c], s.
      destruct M as [<-|[<-|[<-|[<-|[<-|[<-|[<-|[]]]]]]]]; (split; [cbn; tauto|]); split; reflexivity.
  Qed.
  Lemma segs_exist s : forall p, exists l, segs match_alg p s l /\ forall m, In (true, m) l -> In m pieces.
  Proof.
    remember (List.length s) as n eqn:L. revert s L. induction n as [n IH] using lt_wf_ind. intros s L p. subst n.
    assert (FP : forall m, In (true, m) (flushp p) -> False) by (intros m; destruct p; cbn; [tauto|]; intros [X|[]]; discriminate).
    destruct s as [|c s]; [exists (flushp p); split; [constructor|intros m M; destruct (FP m M)]|].
    destruct (match_alg_cases (c :: s)) as [N|(m & r & M & E & MM)].
    - destruct (IH (List.length s)) with (s := s) (p := p ++ [c]) as (l & S & P); [cbn; lia|reflexivity|]. exists l. split; [constructor; assumption|exact P].
    - assert (NE : m <> []) by (intros ->; cbn in M; intuition discriminate).
      destruct (IH (List.length r)) with (s := r) (p := @nil char) as (l & S & P); [rewrite E, app_length; destruct m; [congruence|cbn; lia]|reflexivity|].
      exists (flushp p ++ (true, m) :: l). rewrite E. split; [constructor; assumption|]. intros m' I. apply in_app_or in I. destruct I as [I|[I|I]]; [destruct (FP _ I)|injection I as <-; exact M|apply P, I].
  Qed.

  (** the tokens of any text *)
  Definition token_ok (a : tok) : Prop := match a with ANum _ => True | AStr s => In s pieces end.
  Lemma alg_segs_tokens l : (forall m, In (true, m) l -> In m pieces) -> forall s s', alg_segs float s l = Ok s' -> Forall token_ok (fst s) -> Forall token_ok (fst s').
  Proof.
    induction l as [|[b m] l IH]; intros P s s'; cbn [alg_segs]; [intros [= <-]; auto|].
    assert (P' : forall m', In (true, m') l -> In m' pieces) by (intros m' I; apply P; right; exact I).
    destruct (alg_seg float s (b, m)) as [s1|ex] eqn:E1; cbn [rbind]; [|discriminate]. intros E2 F. apply (IH P' s1 s' E2). clear E2. destruct s as [ex pr]. unfold alg_seg in E1. cbn [fst snd] in E1, F.
    destruct b; cbn [alg_event] in E1.
    - assert (M : In m pieces) by (apply P; left; reflexivity).
      revert E1. destruct (pr && _); [match goal with |- (if ?x then _ else if ?y then _ else _) = _ -> _ => destruct x; [|destruct y; [|discriminate]] end|]; intros E1; injection E1 as <-; cbn [fst]; apply Forall_app; (split; [exact F|]); (constructor; [|constructor]); cbn; tauto.
    - destruct (float m) as [v|]; [|discriminate]. cbn [rbind] in E1. injection E1 as <-. cbn [fst]. apply Forall_app. split; [exact F|]. constructor; [exact I|constructor].
  Qed.
  Lemma tokenizer_tokens w tokens : tokenizer_alg float w = Ok tokens -> Forall token_ok tokens.
  Proof.
    unfold tokenizer_alg. set (s := filter _ w). destruct (segs_exist s []) as (l & S & P). rewrite alg_events_segs, (segs_finditer _ _ _ S).
    destruct (alg_segs float ([], true) l) as [s'|] eqn:E; [|discriminate]. intros [= <-]. apply (alg_segs_tokens l P _ _ E). constructor.
  Qed.

  (** the items of the deque: numbers, and strings of opening parentheses *)
  Definition opening (s : str) : Prop := s <> [] /\ forall c, In c s -> c = ch "(".
  Definition item (x : tok) : Prop := match x with ANum _ => True | AStr s => opening s end.
  Definition has_num (l : list tok) : Prop := exists v, In (ANum v) l.
  (** the tokens that may be pushed: numbers, operators, opening parentheses *)
  Definition pushable (a : tok) : Prop := match a with ANum _ => True | AStr s => In s pieces /\ s <> lit ")" end.

  Lemma arith2_num (f : V -> V -> res V) x y z : arith2 f x y = Ok z -> exists v, z = ANum v.
  Proof.
    unfold arith2. destruct x as [x|], y as [y|]; cbn; try discriminate. destruct (f x y) as [v|]; cbn; [|discriminate]. intros [= <-]. exists v. reflexivity.
  Qed.
  Lemma arith2_in (f : V -> V -> res V) x y z : arith2 f x y = Ok z -> (exists v, x = ANum v) /\ exists v, y = ANum v.
  Proof. unfold arith2. destruct x as [x|], y as [y|]; cbn; try discriminate. eauto. Qed.
  Lemma has_num_cons x l : has_num (x :: l) <-> (exists v, x = ANum v) \/ has_num l.
  Proof. split; [intros (v & [->|I]); [left; eauto|right; exists v; exact I]|intros [(v & ->)|(v & I)]; [exists v; left; reflexivity|exists v; right; exact I]]. Qed.

  Lemma push_kind a out out' : pushable a -> pushA out a = Ok out' -> Forall item out -> Forall item out' /\ (has_num out' <-> has_num [a] \/ has_num out).
  Proof.
    intros PA E F. destruct a as [v|s].
    - change (Ok (ANum v :: out) = Ok out') in E. injection E as <-. split; [constructor; [exact I|exact F]|]. rewrite (has_num_cons _ out), has_num_cons.
      assert (NN : ~ has_num []) by (intros (? & [])). tauto.
    - assert (NS : ~ has_num [AStr s]) by (intros (v & [X|[]]); discriminate).
      destruct PA as [P NP]. unfold push_alg, rpn_append in E.
      assert (B2 : forall o, dget ops (AStr s) = Some o -> cardinality o = 2 -> (forall x y z, on_operation add sub mul div pow neg (AStr s) o (AStr s) [x; y] = Ok z ->
                      item x -> item y -> item z /\ ((exists v, z = ANum v) <-> (exists v, x = ANum v) \/ exists v, y = ANum v)) ->
                    Forall item out' /\ (has_num out' <-> has_num [AStr s] \/ has_num out)).
      { intros o D C G. rewrite D in E. rewrite C in E. destruct out as [|y [|x out]]; [discriminate|discriminate|]. cbn [pops rbind] in E.
        inversion F as [|? ? Fy F1]; subst. inversion F1 as [|? ? Fx F2]; subst.
        destruct (on_operation add sub mul div pow neg (AStr s) o (AStr s) [x; y]) as [z|] eqn:OP; [|discriminate]. injection E as <-.
        destruct (G x y z OP Fx Fy) as [G1 G2]. split; [constructor; assumption|]. rewrite (has_num_cons z), (has_num_cons y), (has_num_cons x). tauto. }
      assert (AR : forall f x y z, arith2 f x y = Ok z -> item x -> item y -> item z /\ ((exists v, z = ANum v) <-> (exists v, x = ANum v) \/ exists v, y = ANum v)).
      { intros f x y z A Ix Iy. destruct (arith2_num f x y z A) as (v & ->). destruct (arith2_in f x y _ A) as [A1 A2]. split; [exact I|]. split; [auto|eauto]. }
      destruct P as [<-|[<-|[<-|[<-|[<-|[<-|[<-|[<-|[<-|[]]]]]]]]]].
      + change (dget ops (AStr (lit "u+"))) with (Some (mkOp 1 3 false)) in E. destruct out as [|x out]; discriminate.
      + change (dget ops (AStr (lit "u-"))) with (Some (mkOp 1 3 false)) in E. destruct out as [|x out]; [discriminate|]. cbn [pops rbind cardinality] in E.
        change (on_operation add sub mul div pow neg (AStr (lit "u-")) (mkOp 1 3 false) (AStr (lit "u-")) [x]) with (arith1 neg x) in E.
        destruct x as [x|]; [|discriminate]. unfold arith1 in E. cbn [num rbind] in E. destruct (neg x) as [v|]; [|discriminate]. cbn [rbind] in E. injection E as <-.
        inversion F; subst. split; [constructor; [exact I|assumption]|]. rewrite !has_num_cons. split; [right; left; eauto|left; eauto].
      + apply (B2 _ eq_refl eq_refl). intros x y z. exact (AR pow x y z).
      + apply (B2 _ eq_refl eq_refl). intros x y z. exact (AR mul x y z).
      + apply (B2 _ eq_refl eq_refl). intros x y z. exact (AR div x y z).
      + apply (B2 _ eq_refl eq_refl). intros x y z OP Ix Iy. change (plus2 add x y = Ok z) in OP. destruct x as [x|sx], y as [y|sy]; try exact (AR add _ _ z OP Ix Iy).
        injection OP as <-. split; [|split; [intros (v & X); discriminate|intros [(v & X)|(v & X)]; discriminate]]. destruct Ix as [N1 Ix], Iy as [N2 Iy].
        split; [destruct sx; [congruence|discriminate]|]. intros c I. apply in_app_or in I. destruct I; auto.
      + apply (B2 _ eq_refl eq_refl). intros x y z. exact (AR sub x y z).
      + change (Ok (AStr (lit "(") :: out) = Ok out') in E. injection E as <-. split; [|rewrite (has_num_cons _ out); split; [intros [(v & X)|X]; [discriminate|auto]|intros [X|X]; [contradiction|auto]]].
        constructor; [|exact F]. split; [discriminate|]. intros c [<-|[]]. reflexivity.
      + congruence.
  Qed.

  (** operators on the stack *)
  Definition stackable (a : tok) : Prop := match a with ANum _ => False | AStr s => In s pieces /\ s <> lit ")" end.
  Lemma stackable_push a : stackable a -> pushable a.
  Proof. destruct a; [intros []|auto]. Qed.
  Lemma stackable_num a : stackable a -> ~ has_num [a].
  Proof. destruct a; [intros []|]. intros _ (v & [X|[]]). discriminate. Qed.
  Notation lp := (@AStr V (lit "(")).
  Notation rp := (@AStr V (lit ")")).
  Definition fine (st : list tok * list tok) (n : Prop) : Prop := Forall stackable (fst st) /\ Forall item (snd st) /\ (has_num (snd st) <-> n).
  Lemma push_fine o st out out' n : stackable o -> fine (st, out) n -> pushA out o = Ok out' -> fine (st, out') n.
  Proof.
    intros S (F1 & F2 & F3) E. destruct (push_kind o out out' (stackable_push o S) E F2) as [G1 G2]. split; [exact F1|]. split; [exact G1|]. cbn [snd] in *. rewrite G2, <- F3. pose proof (stackable_num o S). tauto.
  Qed.
  Lemma close_fine st : forall out s' n, close_loop lp pushA st out = Ok s' -> fine (st, out) n -> fine s' n.
  Proof.
    induction st as [|o st IH]; intros out s' n E F; [discriminate|]. cbn [close_loop] in E. destruct F as (F1 & F2). cbn [fst] in F1. inversion F1; subst.
    destruct (eqb o lp); [injection E as <-; split; assumption|]. destruct (pushA out o) as [out1|] eqn:P; [|discriminate]. cbn [rbind] in E.
    apply (IH out1 s' n E). apply (push_fine o st out out1 n); [assumption|split; assumption|exact P].
  Qed.
  Lemma pop_fine op st : forall out s' n, pop_loop ops pushA op st out = Ok s' -> fine (st, out) n -> fine s' n.
  Proof.
    induction st as [|o st IH]; intros out s' n E F; cbn [pop_loop] in E; [injection E as <-; exact F|]. destruct (preceeds ops o op); [|injection E as <-; exact F].
    destruct F as (F1 & F2). cbn [fst] in F1. inversion F1; subst. destruct (pushA out o) as [out1|] eqn:P; [|discriminate]. cbn [rbind] in E.
    apply (IH out1 s' n E). apply (push_fine o st out out1 n); [assumption|split; assumption|exact P].
  Qed.
  Lemma flush_fine st : forall out out' n, flush pushA st out = Ok out' -> fine (st, out) n -> fine ([], out') n.
  Proof.
    induction st as [|o st IH]; intros out out' n E F; cbn [flush] in E; [injection E as <-; exact F|].
    destruct F as (F1 & F2). cbn [fst] in F1. inversion F1; subst. destruct (pushA out o) as [out1|] eqn:P; [|discriminate]. cbn [rbind] in E.
    apply (IH out1 out' n E). apply (push_fine o st out out1 n); [assumption|split; assumption|exact P].
  Qed.
  Lemma step_fine s a s' n : token_ok a -> token_step lp rp ops pushA s a = Ok s' -> fine s n -> fine s' (has_num [a] \/ n).
  Proof.
    intros OK E F. destruct s as [st out]. unfold token_step in E.
    assert (NS : forall x, a = AStr x -> (has_num [a] \/ n <-> n)) by (intros x ->; split; [intros [(v & [X|[]])|X]; [discriminate|exact X]|auto]).
    destruct (eqb_spec a lp) as [Ea|Nl]; [|destruct (eqb_spec a rp) as [Ea|Nr]].
    - injection E as <-. destruct F as (F1 & F2 & F3). split; [|split; [exact F2|rewrite (NS _ Ea); exact F3]]. cbn [fst]. constructor; [|exact F1]. subst a. split; [cbn; tauto|discriminate].
    - pose proof (close_fine st out s' n E F) as (G1 & G2 & G3). split; [exact G1|]. split; [exact G2|]. rewrite (NS _ Ea). exact G3.
    - destruct (dget ops a) as [op|] eqn:D.
      + destruct (pop_loop ops pushA op st out) as [[st1 out1]|] eqn:P; [|discriminate]. cbn [rbind] in E. injection E as <-. pose proof (pop_fine op st out _ n P F) as (G1 & G2 & G3).
        destruct a as [v|x]; [discriminate|]. split; [|split; [exact G2|rewrite (NS x eq_refl); exact G3]]. cbn [fst]. constructor; [|exact G1]. split; [exact OK|congruence].
      + destruct a as [v|x]; [|exfalso; destruct OK as [<-|[<-|[<-|[<-|[<-|[<-|[<-|[<-|[<-|[]]]]]]]]]]; first [discriminate D|congruence]].
        change (Ok (st, ANum v :: out) = Ok s') in E. injection E as <-. destruct F as (F1 & F2 & F3). split; [exact F1|]. split; [constructor; [exact I|exact F2]|]. cbn [snd] in *.
        rewrite has_num_cons, F3. split; [intros [X|X]; [left; exists v; left; reflexivity|auto]|intros [X|X]; [left; eauto|auto]].
  Qed.
  Lemma loop_fine tokens : forall s s' n, Forall token_ok tokens -> tokens_loop lp rp ops pushA s tokens = Ok s' -> fine s n -> fine s' (has_num tokens \/ n).
  Proof.
    induction tokens as [|a tokens IH]; intros s s' n OK E F; cbn [tokens_loop] in E.
    - injection E as <-. destruct F as (F1 & F2 & F3). split; [exact F1|]. split; [exact F2|]. rewrite F3. split; [auto|]. intros [(v & [])|X]; exact X.
    - inversion OK; subst. destruct (token_step lp rp ops pushA s a) as [s1|] eqn:S; [|discriminate]. cbn [rbind] in E.
      destruct (IH s1 s' _ H3 E (step_fine s a s1 n H2 S F)) as (G1 & G2 & G3). split; [exact G1|]. split; [exact G2|]. rewrite G3, (has_num_cons a tokens), (has_num_cons a []).
      assert (NN : ~ has_num []) by (intros (? & [])). tauto.
  Qed.
  Lemma result_kind w r : shunting_yard_compute float add sub mul div pow neg w = Ok r -> exists tokens, tokenizer_alg float w = Ok tokens /\
    ((exists v, r = ANum v) <-> exists v, In (ANum v) tokens) /\ forall s, r = AStr s -> opening s.
  Proof.
    unfold shunting_yard_compute, shunting_yard_postfix. destruct (tokenizer_alg float w) as [tokens|] eqn:T; [|discriminate]. cbn [rbind].
    destruct (tokens_loop lp rp ops pushA ([], []) tokens) as [[st out]|] eqn:L; [|discriminate]. cbn [rbind]. destruct (flush pushA st out) as [ret|] eqn:FL; [|discriminate]. cbn [rbind].
    destruct ret as [|r' [|]]; try discriminate. intros [= ->]. exists tokens. split; [reflexivity|].
    assert (F0 : fine ([], []) (has_num [])) by (split; [constructor|split; [constructor|tauto]]).
    pose proof (flush_fine st out [r] _ FL (loop_fine tokens _ _ _ (tokenizer_tokens w tokens T) L F0)) as (_ & G2 & G3). cbn [snd] in *.
    assert (NN : ~ has_num []) by (intros (? & [])). rewrite has_num_cons in G3. split; [unfold has_num in *; tauto|]. intros s ->. inversion G2; assumption.
  Qed.
End K.
