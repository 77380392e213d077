(** Lemmas on Python comparisons. *)
From Coq Require Import ZArith.
From Verif Require Import Str Graph Automaton Nfa EdgeDesc EdgeDescSpec.
From Verif Require Import Base BaseProofs.

Section Ind.
  Variable P : value -> Prop.
  Hypothesis Hn : P VNone.
  Hypothesis Hi : forall z, P (VInt z).
  Hypothesis Hs : forall s, P (VStr s).
  Hypothesis Ht : forall l, Forall P l -> P (VTup l).
  Hypothesis Hx : forall s, P (VSet s).
  Fixpoint value_ind' (x : value) : P x :=
    match x with
    | VNone => Hn | VInt z => Hi z | VStr s => Hs s | VSet s => Hx s
    | VTup l => Ht l ((fix go (l : list value) : Forall P l := match l with [] => Forall_nil _ | x :: l => Forall_cons x (value_ind' x) (go l) end) l)
    end.
End Ind.

Lemma subset_incl s t : subset s t = true <-> incl s t.
Proof. unfold subset. rewrite forallb_forall. split; intros F x I; [apply mem_spec, F, I|apply mem_spec, F, I]. Qed.
Lemma subset_false s t : subset s t = false <-> ~ incl s t.
Proof. rewrite <- subset_incl. destruct (subset s t); split; congruence. Qed.

(** the loops on the tuples, by themselves *)
Fixpoint eqs (l l' : list value) : bool :=
  match l, l' with [], [] => true | x :: l, y :: l' => py_eq x y && eqs l l' | _, _ => false end.
Fixpoint lts (l l' : list value) : res bool :=
  match l, l' with _, [] => Ok false | [], _ :: _ => Ok true | x :: l, y :: l' => if py_eq x y then lts l l' else py_lt x y end.
Fixpoint hashes (l : list value) : res unit := match l with [] => Ok tt | x :: l => rbind (py_hash x) (fun _ => hashes l) end.
Lemma py_eq_tup l l' : py_eq (VTup l) (VTup l') = eqs l l'.
Proof. reflexivity. Qed.
Lemma py_lt_tup l l' : py_lt (VTup l) (VTup l') = lts l l'.
Proof. reflexivity. Qed.
Lemma py_hash_tup l : py_hash (VTup l) = hashes l.
Proof. reflexivity. Qed.

Lemma eqs_spec l : Forall (fun x => forall y, py_eq x y = true <-> same x y) l -> forall l', eqs l l' = true <-> Forall2 same l l'.
Proof.
  induction 1 as [|x l Hx _ IH]; intros [|y l']; cbn [eqs]; try (split; [discriminate|intros F; inversion F]); [split; [constructor|reflexivity]|].
  rewrite andb_true_iff, Hx, IH. split; [intros [E F]; constructor; assumption|intros F; inversion F; auto].
Qed.
Lemma py_eq_spec x : forall y, py_eq x y = true <-> same x y.
Proof.
  induction x as [|z|s|l IH|s] using value_ind'; intros y.
  - destruct y; cbn; (split; [intros E; try discriminate E; constructor|intros S; inversion S; reflexivity]).
  - destruct y; cbn [py_eq]; try (split; [discriminate|intros S; inversion S]). rewrite Z.eqb_eq. split; [intros ->; constructor|intros S; inversion S; reflexivity].
  - destruct y; cbn [py_eq]; try (split; [discriminate|intros S; inversion S]). split; [intros E; apply (proj1 (eqb_eq _ _)) in E; subst; constructor|intros S; inversion S; apply eqb_refl].
  - destruct y; try (cbn; split; [discriminate|intros S; inversion S]). rewrite py_eq_tup, (eqs_spec l IH). split; [constructor; assumption|intros S; inversion S; assumption].
  - destruct y; cbn [py_eq]; try (split; [discriminate|intros S; inversion S]). rewrite andb_true_iff, !subset_incl.
    split; [intros [I J]; constructor; intros x; split; [apply I|apply J]|intros S; inversion S as [| | | |? ? H]; subst; split; intros x X; apply H; exact X].
Qed.
Lemma py_eq_false x y : py_eq x y = false <-> ~ same x y.
Proof. rewrite <- py_eq_spec. destruct (py_eq x y); split; congruence. Qed.
Lemma same_dec x y : {same x y} + {~ same x y}.
Proof. destruct (py_eq x y) eqn:E; [left; apply py_eq_spec, E|right; apply py_eq_false, E]. Qed.

Lemma str_lt_spec s : forall t, str_lt s t = true <-> before s t.
Proof.
  unfold before. induction s as [|a s IH]; intros [|b t]; cbn [str_lt].
  - split; [discriminate|]. intros [(c & u & E)|(p & a & b & s' & t' & E & _)]; [discriminate E|destruct p; discriminate E].
  - split; [|reflexivity]. intros _. left. exists b, t. reflexivity.
  - split; [discriminate|]. intros [(c & u & E)|(p & a' & b & s' & t' & _ & E & _)]; [discriminate E|destruct p; discriminate E].
  - destruct (N.eqb_spec a b) as [->|NE].
    + rewrite IH. split.
      * intros [(c & u & E)|(p & x & y & s' & t' & E & F & L)]; [left; exists c, u; subst; reflexivity|right; exists (b :: p), x, y, s', t'; subst; auto].
      * intros [(c & u & E)|(p & x & y & s' & t' & E & F & L)]; [left; exists c, u; injection E as E; exact E|]. destruct p as [|z p].
        { injection E as <- <-. injection F as <- <-. destruct (N.lt_irrefl _ L). }
        injection E as <- E. injection F as F. right. exists p, x, y, s', t'. auto.
    + rewrite N.ltb_lt. split.
      * intros L. right. exists [], a, b, s, t. auto.
      * intros [(c & u & E)|(p & x & y & s' & t' & E & F & L)]; [injection E as -> _; destruct (NE eq_refl)|]. destruct p as [|z p].
        { injection E as <- <-. injection F as <- <-. exact L. }
        injection E as <- _. injection F as F _. destruct (NE (eq_sym F)).
Qed.

(** decomposition of two tuples *)
Lemma lts_spec l : Forall (fun x => forall y, (py_lt x y = Ok true <-> less x y) /\ (py_lt x y = Raise TypeError <-> clash x y)) l ->
  (forall x, less x x -> False) -> (forall x y, less x y -> same x y -> False) -> forall l',
  (lts l l' = Ok true <-> less (VTup l) (VTup l')) /\ (lts l l' = Raise TypeError <-> clash (VTup l) (VTup l')).
Proof.
  intros H _ LS. induction H as [|x l Hx _ IH]; intros l'.
  - destruct l' as [|y l']; cbn [lts].
    + split; (split; [discriminate|intros X; inversion X; subst]); try (match goal with K : kind _ <> kind _ |- _ => destruct (K eq_refl) end).
      all: match goal with E : ?l ++ _ :: _ = [] |- _ => destruct l; discriminate E | E : [] = ?l ++ _ :: _ |- _ => destruct l; discriminate E end.
    + split; (split; [|intros X]); try reflexivity; try discriminate.
      * intros _. apply (less_prefix [] [] y l'). constructor.
      * inversion X; subst; [destruct (H eq_refl)|destruct p; discriminate].
  - destruct l' as [|y l']; cbn [lts].
    + split; (split; [discriminate|intros X]).
      * inversion X; subst; destruct p; try discriminate; destruct p'; discriminate.
      * inversion X; subst; [destruct (H eq_refl)|]. destruct p'; discriminate.
    + destruct (py_eq x y) eqn:E.
      * apply py_eq_spec in E. destruct (IH l') as [I1 I2]. rewrite I1, I2. split; split; intros X.
        { inversion X; subst; [apply (less_prefix (x :: l) (y :: p)); constructor; assumption|apply (less_item (x :: p) (y :: p')); [constructor; assumption|assumption]]. }
        { inversion X as [| |l0 p c s F E1 E2|p p' x0 y0 s s' F L E1 E2|]; subst.
          - destruct p as [|z p]; [inversion F|]. inversion F; injection E2; intros; subst. apply less_prefix. assumption.
          - destruct p as [|z p].
            + inversion F; subst. injection E1; injection E2; intros; subst. destruct (LS _ _ L E).
            + inversion F; subst. injection E1; injection E2; intros; subst. apply less_item; assumption. }
        { inversion X; subst; [match goal with K : kind _ <> kind _ |- _ => destruct (K eq_refl) end|]. apply (clash_item (x :: p) (y :: p')); [constructor; assumption|assumption|assumption]. }
        { inversion X as [? ? K| |p p' x0 y0 s s' F NS C E1 E2]; subst; [destruct (K eq_refl)|]. destruct p as [|z p].
          - inversion F; subst. injection E1; injection E2; intros; subst. destruct (NS E).
          - inversion F; subst. injection E1; injection E2; intros; subst. apply clash_item; assumption. }
      * apply py_eq_false in E. destruct (Hx y) as [H1 H2]. rewrite H1, H2. split; split; intros X.
        { apply (less_item [] []); [constructor|exact X]. }
        { inversion X as [| |l0 p c s F E1 E2|p p' x0 y0 s s' F L E1 E2|]; subst.
          - destruct p as [|z p]; [inversion F|]. inversion F; injection E2; intros; subst. destruct (E ltac:(assumption)).
          - destruct p as [|z p].
            + inversion F; subst. injection E1; injection E2; intros; subst. exact L.
            + inversion F; subst. injection E1; injection E2; intros; subst. destruct (E ltac:(assumption)). }
        { apply (clash_item [] []); [constructor|exact E|exact X]. }
        { inversion X as [? ? K| |p p' x0 y0 s s' F NS C E1 E2]; subst; [destruct (K eq_refl)|]. destruct p as [|z p].
          - inversion F; subst. injection E1; injection E2; intros; subst. exact C.
          - inversion F; subst. injection E1; injection E2; intros; subst. destruct (E ltac:(assumption)). }
Qed.

Lemma before_irrefl s : ~ before s s.
Proof. rewrite <- str_lt_spec. induction s as [|a s IH]; cbn [str_lt]; [discriminate|]. rewrite N.eqb_refl. exact IH. Qed.

Lemma Forall2_length {X Y} (R : X -> Y -> Prop) l m : Forall2 R l m -> length l = length m.
Proof. induction 1; cbn; congruence. Qed.
Lemma Forall2_app_len {X Y} (R : X -> Y -> Prop) l1 l2 m1 m2 : length l1 = length m1 -> Forall2 R (l1 ++ l2) (m1 ++ m2) -> Forall2 R l1 m1 /\ Forall2 R l2 m2.
Proof.
  revert m1. induction l1 as [|x l1 IH]; intros [|y m1] E F; try discriminate E; [split; [constructor|exact F]|].
  cbn in E, F. inversion F; subst. destruct (IH m1) as [A B]; [lia|assumption|]. split; [constructor; assumption|exact B].
Qed.
Lemma less_not_same x : forall y, less x y -> ~ same x y.
Proof.
  induction x as [|z|s|l IH|s] using value_ind'; intros y L S; inversion L; subst; inversion S; subst.
  - lia.
  - eapply before_irrefl; eassumption.
  - repeat match goal with F : Forall2 same _ _ |- _ => apply Forall2_length in F; rewrite ?app_length in F; cbn in F end. lia.
  - match goal with F : Forall2 same (_ ++ _) (_ ++ _) |- _ => apply Forall2_app_len in F; [destruct F as [_ F]; inversion F; subst|eapply Forall2_length; eassumption] end.
    rewrite Forall_forall in IH. apply (IH x (in_elt x p s) y0); assumption.
  - match goal with N : ~ incl _ _, H : forall x, _ <-> _ |- _ => apply N; intros x X; apply H, X end.
Qed.

Lemma py_lt_spec x : forall y, (py_lt x y = Ok true <-> less x y) /\ (py_lt x y = Raise TypeError <-> clash x y).
Proof.
  induction x as [|z|s|l IH|s] using value_ind'; intros y.
  - assert (K : clash VNone y) by (destruct y; try (apply clash_kind; discriminate); constructor).
    cbn. split; [split; [discriminate|intros X; inversion X]|tauto].
  - destruct y; cbn [py_lt]; try (split; [split; [discriminate|intros X; inversion X]|split; [intros _; apply clash_kind; discriminate|reflexivity]]).
    split; [|split; [discriminate|intros X; inversion X as [? ? K| |]; destruct (K eq_refl)]].
    split; [intros E; injection E as E; constructor; apply Z.ltb_lt, E|intros X; inversion X; subst; f_equal; apply Z.ltb_lt; assumption].
  - destruct y; cbn [py_lt]; try (split; [split; [discriminate|intros X; inversion X]|split; [intros _; apply clash_kind; discriminate|reflexivity]]).
    split; [|split; [discriminate|intros X; inversion X as [? ? K| |]; destruct (K eq_refl)]].
    split; [intros E; injection E as E; constructor; apply str_lt_spec, E|intros X; inversion X; subst; f_equal; apply str_lt_spec; assumption].
  - destruct y; try (cbn; split; [split; [discriminate|intros X; inversion X]|split; [intros _; apply clash_kind; discriminate|reflexivity]]).
    rewrite py_lt_tup. apply lts_spec; [exact IH| |].
    + intros x L. apply (less_not_same _ _ L). clear. apply py_eq_spec. induction x as [|z|s|l IH|s] using value_ind'; cbn [py_eq]; try reflexivity.
      * apply Z.eqb_refl.
      * apply eqb_refl.
      * change ((py_eq (VTup l) (VTup l)) = true). rewrite py_eq_tup. induction IH as [|x l E _ IH']; [reflexivity|]. cbn [eqs]. rewrite E. exact IH'.
      * assert (E : subset s s = true) by (apply subset_incl, incl_refl). rewrite E. reflexivity.
    + intros x y L S. exact (less_not_same _ _ L S).
  - destruct y; cbn [py_lt]; try (split; [split; [discriminate|intros X; inversion X]|split; [intros _; apply clash_kind; discriminate|reflexivity]]).
    split; [|split; [discriminate|intros X; inversion X as [? ? K| |]; destruct (K eq_refl)]].
    split.
    + intros E. injection E as E. apply andb_true_iff in E. destruct E as [E1 E2]. apply negb_true_iff in E2. constructor; [apply subset_incl, E1|apply subset_false, E2].
    + intros X. inversion X as [| | | |? ? I J]; subst. f_equal. apply andb_true_iff. split; [apply subset_incl, I|apply negb_true_iff, subset_false, J].
Qed.

Lemma py_lt_cases x : forall y, (exists b, py_lt x y = Ok b) \/ py_lt x y = Raise TypeError.
Proof.
  induction x as [|z|s|l IH|s] using value_ind'; intros [|z'|s'|l'|s']; try (right; reflexivity); try (left; eexists; reflexivity).
  rewrite py_lt_tup. revert l'. induction IH as [|x l Hx _ IH]; intros [|y l']; cbn [lts]; try (left; eexists; reflexivity). destruct (py_eq x y); [apply IH|apply Hx].
Qed.

Lemma py_hash_spec x : (py_hash x = Ok tt /\ ~ holds_set x) \/ (py_hash x = Raise TypeError /\ holds_set x).
Proof.
  induction x as [|z|s|l IH|s] using value_ind'; try (left; split; [reflexivity|intros H; inversion H]).
  - rewrite py_hash_tup. induction IH as [|x l Hx _ IH]; [left; split; [reflexivity|intros H; inversion H as [|? ? I]; destruct I]|]. cbn [hashes].
    destruct Hx as [[-> N]|[-> HS]]; cbn [rbind].
    + destruct IH as [[-> N']|[-> HS]]; [left|right]; (split; [reflexivity|]).
      * intros H. inversion H as [|? y I HS]; subst. destruct I as [<-|I]; [exact (N HS)|]. apply N'. econstructor; eassumption.
      * inversion HS; subst. econstructor; [right; eassumption|assumption].
    + right. split; [reflexivity|]. econstructor; [left; reflexivity|exact HS].
  - right. split; [reflexivity|constructor].
Qed.

(** ** Homogeneous objects *)
Section TyInd.
  Variable P : ty -> Prop.
  Hypothesis Hi : P TInt.
  Hypothesis Hs : P TStr.
  Hypothesis Ht : forall l, Forall P l -> P (TTup l).
  Fixpoint ty_ind' (x : ty) : P x :=
    match x with
    | TInt => Hi | TStr => Hs
    | TTup l => Ht l ((fix go (l : list ty) : Forall P l := match l with [] => Forall_nil _ | x :: l => Forall_cons x (ty_ind' x) (go l) end) l)
    end.
End TyInd.

Lemma str_trich s : forall t, str_lt s t = true \/ s = t \/ str_lt t s = true.
Proof.
  induction s as [|a s IH]; intros [|b t]; cbn [str_lt]; auto. rewrite (N.eqb_sym b a). destruct (N.eqb_spec a b) as [->|NE].
  - destruct (IH t) as [H|[->|H]]; auto.
  - rewrite !N.ltb_lt. lia.
Qed.
Lemma str_trans s : forall t u, str_lt s t = true -> str_lt t u = true -> str_lt s u = true.
Proof.
  induction s as [|a s IH]; intros [|b t] [|c u]; cbn [str_lt]; try discriminate; auto.
  destruct (N.eqb_spec a b) as [->|N1]; destruct (N.eqb_spec b c) as [->|N2].
  - apply IH.
  - auto.
  - destruct (N.eqb_spec a c); [contradiction|]. auto.
  - intros L1 L2. apply N.ltb_lt in L1, L2. destruct (N.eqb_spec a c) as [->|]; [lia|]. apply N.ltb_lt. lia.
Qed.

Lemma same_typed t : forall x y, has_type t x -> has_type t y -> same x y -> x = y.
Proof.
  induction t as [| |ts IH] using ty_ind'; intros x y Hx Hy S; inversion Hx; subst; inversion Hy; subst; inversion S; subst; try reflexivity.
  f_equal. clear S Hx Hy. repeat match goal with F : Forall2 _ _ _ |- _ => revert F end. revert l l0. induction IH as [|t ts Ht _ IH]; intros l l' S F F'; inversion F; subst; inversion F'; subst; [reflexivity|].
  inversion S; subst. f_equal; [apply Ht; assumption|apply IH; assumption].
Qed.
Lemma same_refl x : same x x.
Proof. induction x as [|z|s|l IH|s] using value_ind'; constructor; [|tauto]. induction IH; constructor; assumption. Qed.

Lemma typed_total t : forall x y, has_type t x -> has_type t y ->
  (py_lt x y = Ok true /\ x <> y /\ py_lt y x = Ok false) \/ (x = y /\ py_lt x y = Ok false) \/ (py_lt x y = Ok false /\ x <> y /\ py_lt y x = Ok true).
Proof.
  induction t as [| |ts IH] using ty_ind'; intros x y Hx Hy; inversion Hx as [z|s|ts1 l F]; subst; inversion Hy as [z0|s0|ts2 l' F']; subst.
  - cbn [py_lt]. destruct (Z.ltb_spec z z0); destruct (Z.ltb_spec z0 z); try lia.
    + left. repeat split. intros E. injection E. lia.
    + right. right. repeat split. intros E. injection E. lia.
    + right. left. split; [f_equal; lia|reflexivity].
  - cbn [py_lt]. assert (I : forall u, str_lt u u = false) by (intros u; apply not_true_iff_false; rewrite str_lt_spec; apply before_irrefl).
    destruct (str_trich s s0) as [L|[->|L]].
    + left. rewrite L. repeat split; [intros E; injection E as ->; rewrite I in L; discriminate|]. f_equal. apply not_true_iff_false. intros L'.
      pose proof (str_trans _ _ _ L L') as X. rewrite I in X. discriminate.
    + right. left. split; [reflexivity|]. rewrite I. reflexivity.
    + right. right. rewrite L. repeat split; [|intros E; injection E as ->; rewrite I in L; discriminate]. f_equal. apply not_true_iff_false. intros L'.
      pose proof (str_trans _ _ _ L L') as X. rewrite I in X. discriminate.
  - rewrite !py_lt_tup. clear Hx Hy. revert l F l' F'. induction IH as [|t ts Ht _ IH]; intros l F l' F'; inversion F as [|? y ? l0 H1 H3]; subst; inversion F' as [|? y0 ? l1 H4 H6]; subst; [right; left; split; reflexivity|].
    cbn [lts]. destruct (py_eq y y0) eqn:E.
    + apply py_eq_spec in E. pose proof (same_typed _ _ _ H1 H4 E) as <-. assert (E' : py_eq y y = true) by (apply py_eq_spec, same_refl). rewrite E'.
      destruct (IH l0 H3 l1 H6) as [(A & B & C)|[(A & B)|(A & B & C)]].
      * left. repeat split; [exact A|intros X; injection X as ->; destruct (B eq_refl)|exact C].
      * injection A as ->. right. left. split; [reflexivity|exact B].
      * right. right. repeat split; [exact A|intros X; injection X as ->; destruct (B eq_refl)|exact C].
    + assert (E' : py_eq y0 y = false). { apply not_true_iff_false. intros X. apply py_eq_spec in X. pose proof (same_typed _ _ _ H4 H1 X) as ->. rewrite (proj2 (py_eq_spec y y) (same_refl y)) in E. discriminate. }
      rewrite E'. destruct (Ht y y0 H1 H4) as [(A & B & C)|[(-> & B)|(A & B & C)]].
      * left. repeat split; [exact A|intros X; injection X as -> _; destruct (B eq_refl)|exact C].
      * rewrite (proj2 (py_eq_spec y0 y0) (same_refl y0)) in E. discriminate.
      * right. right. repeat split; [exact A|intros X; injection X as -> _; destruct (B eq_refl)|exact C].
Qed.

Lemma typed_trans t : forall x y z, has_type t x -> has_type t y -> has_type t z -> py_lt x y = Ok true -> py_lt y z = Ok true -> py_lt x z = Ok true.
Proof.
  induction t as [| |ts IH] using ty_ind'; intros x y z Hx Hy Hz; inversion Hx as [i|s|ts1 l F]; subst; inversion Hy as [i'|s'|ts2 l' F']; subst; inversion Hz as [i''|s''|ts3 l'' F'']; subst.
  - cbn [py_lt]. intros E1 E2. injection E1 as E1. injection E2 as E2. f_equal. apply Z.ltb_lt in E1, E2. apply Z.ltb_lt. lia.
  - cbn [py_lt]. intros E1 E2. injection E1 as E1. injection E2 as E2. f_equal. eapply str_trans; eassumption.
  - rewrite !py_lt_tup. clear Hx Hy Hz. revert l F l' F' l'' F''. induction IH as [|t ts Ht _ IH]; intros l F l' F' l'' F''; inversion F as [|? y ? l0 H1 H3]; subst; inversion F' as [|? y0 ? l1 H4 H6]; subst; inversion F'' as [|? y1 ? l2 H7 H9]; subst; [discriminate|].
    cbn [lts]. assert (R : forall v, py_eq v v = true) by (intros v; apply py_eq_spec, same_refl).
    destruct (py_eq y y0) eqn:E1.
    + apply py_eq_spec in E1. pose proof (same_typed _ _ _ H1 H4 E1) as <-. destruct (py_eq y y1); [apply IH; assumption|auto].
    + destruct (py_eq y0 y1) eqn:E2.
      * apply py_eq_spec in E2. pose proof (same_typed _ _ _ H4 H7 E2) as <-. rewrite E1. auto.
      * intros L1 L2. pose proof (Ht _ _ _ H1 H4 H7 L1 L2) as L. destruct (py_eq y y1) eqn:E3; [|exact L].
        apply py_eq_spec in E3. pose proof (same_typed _ _ _ H1 H7 E3) as <-.
        destruct (typed_total t y y H1 H1) as [(_ & N & _)|[(_ & B)|(_ & N & _)]]; [destruct (N eq_refl)|rewrite B in L; discriminate|destruct (N eq_refl)].
Qed.
