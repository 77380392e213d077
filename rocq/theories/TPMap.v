(** Theorem C66 on several property maps, which may share their dictionaries. *)
From Verif Require Import PMap PMapSpec.
From Verif Require Import Base BaseProofs.

Section C66.
  Context {O : Type} `{EqDec O}.
  Variable hashable : O -> bool.

  Lemma heap_set_nth (h : heap O) r s s' r' : nth_error h r = Some s ->
    nth_error (heap_set h r s') r' = if eqb r' r then Some s' else nth_error h r'.
  Proof.
    unfold heap_set. revert r r'. induction h as [|x h IH]; intros r r' N; [destruct r; discriminate N|]. destruct r as [|r].
    - cbn [firstn skipn app]. destruct r' as [|r']; reflexivity.
    - cbn [firstn]. destruct r' as [|r']; [reflexivity|]. cbn [app nth_error]. change (skipn (S (S r)) (x :: h)) with (skipn (S r) h). rewrite (IH r r' N).
      destruct (BaseProofs.eqb_spec r' r) as [->|N2]; [rewrite eqb_refl; reflexivity|]. destruct (BaseProofs.eqb_spec (S r') (S r)) as [E|]; [congruence|reflexivity].
  Qed.

  (** The state after the history [hist], the latest call first *)
  Definition after (h h' : heap O) (hist : list (pmap_op O)) : Prop := forall r,
    match nth_error h r with
    | None => nth_error h' r = None
    | Some s => exists c, nth_error h' r = Some (with_content s c) /\ forall k,
        (In k (dkeys c) <-> In k (dkeys (content s)) \/ exists op, In op hist /\ touches hashable h op r k) /\
        (In k (dkeys c) -> hashable k = true -> dget c k = first_of (last_put hashable hist r k) (first_of (dget (content s) k) (factory s))) /\
        (~ In k (dkeys c) -> last_put hashable hist r k = None)
    end.
  Lemma after_same h h' hist op : (forall r k, ~ touches hashable h op r k) -> (forall r k, last_put hashable (op :: hist) r k = last_put hashable hist r k) ->
    after h h' hist -> after h h' (op :: hist).
  Proof.
    intros T L A r. specialize (A r). destruct (nth_error h r) as [s|]; [|exact A]. destruct A as (c & N & A). exists c. split; [exact N|]. intros k. destruct (A k) as (A1 & A2 & A3). rewrite L. split; [|split; assumption].
    rewrite A1. split; intros [I|(op' & I & X)]; auto; right; [exists op'; split; [right; exact I|exact X]|]. destruct I as [<-|I]; [destruct (T _ _ X)|exists op'; split; assumption].
  Qed.
  Lemma step_after h h' hist op : made_on h (map_of op) -> after h h' hist ->
    after h (fst (pmap_step hashable h' op)) (op :: hist) /\ snd (pmap_step hashable h' op) = expected hashable h hist op.
  Proof.
    intros M A.
    destruct op as [[f| |v|r] k|[f| |v0|r] k v|m k]; cbn [pmap_step pmap_get pmap_put pmap_del fst snd rbind expected last_put];
      try (split; [|reflexivity]; apply after_same; [intros r0 k0 (_ & [(Q & _)|(? & Q)]); discriminate Q|reflexivity|exact A]).
    - (* a read of a dictionary *)
      cbn [map_of made_on] in M. unfold make_assoc_property_map in M. destruct (nth_error h r) as [s|] eqn:N; [|discriminate M]. clear M.
      destruct (hashable k) eqn:HK.
      2: { cbn [fst snd rbind]. split; [|reflexivity]. apply after_same; [|reflexivity|exact A]. intros r0 k0 (HK0 & [(Q & _)|(? & Q)]); [|discriminate Q]. injection Q as <- <-. congruence. }
      pose proof (A r) as Ar. rewrite N in Ar. destruct Ar as (c & N' & Ar). rewrite N'. cbn [content factory with_content].
      destruct (Ar k) as (A1 & A2 & A3). destruct (dget c k) as [w|] eqn:G; [|destruct (factory s) as [v|] eqn:F]; cbn [fst snd rbind].
      + assert (I : In k (dkeys c)) by (apply (dget_Some_key c k w G)). specialize (A2 I HK). rewrite <- A2. split; [|reflexivity].
        intros r0. specialize (A r0). destruct (nth_error h r0) as [s0|] eqn:N0; [|exact A]. destruct A as (c0 & N0' & A). exists c0. split; [exact N0'|]. intros k0. destruct (A k0) as (B1 & B2 & B3).
        cbn [last_put]. split; [|split; assumption]. rewrite B1. split; intros [J|(op' & J & X)]; auto; [right; exists op'; split; [right; exact J|exact X]|].
        destruct J as [<-|J]; [|right; exists op'; split; assumption]. destruct X as (_ & [(Q & _)|(? & Q)]); [|discriminate Q]. injection Q as <- <-.
        apply B1. rewrite N' in N0'. rewrite N in N0. injection N0 as <-. unfold with_content in N0'. injection N0' as <-. exact I.
      + assert (NI : ~ In k (dkeys c)) by (apply dget_None, G). specialize (A3 NI). rewrite A3.
        assert (G0 : dget (content s) k = None) by (apply dget_None; intros J; apply NI, A1; left; exact J). rewrite G0. cbn [first_of]. split; [|reflexivity].
        intros r0. rewrite (heap_set_nth h' r _ _ r0 N'). pose proof (A r0) as A0. destruct (BaseProofs.eqb_spec r0 r) as [->|NE].
        * rewrite N. exists (dset c k v). split; [reflexivity|]. intros k0. destruct (Ar k0) as (B1 & B2 & B3). cbn [last_put]. rewrite In_dkeys_dset. split; [|split].
          -- rewrite B1. split.
             ++ intros [->|[J|(op' & J & X)]]; auto; right; [exists (PGet (AssocMap r) k)|exists op']; (split; [cbn; auto|]); [split; [exact HK|left; split; [reflexivity|exists s, v; auto]]|exact X].
             ++ intros [J|(op' & [<-|J] & X)]; auto; [|right; right; exists op'; auto]. destruct X as (_ & [(Q & _)|(? & Q)]); [|discriminate Q]. injection Q as <-. left. reflexivity.
          -- intros J HK0. rewrite dget_dset. destruct (BaseProofs.eqb_spec k0 k) as [->|NK]; [rewrite A3, G0; cbn [first_of]; auto|]. rewrite ?F in *; apply B2; [destruct J; [contradiction|assumption]|exact HK0].
          -- intros J. apply B3. auto.
        * destruct (nth_error h r0) as [s0|] eqn:N0; [|exact A0]. destruct A0 as (c0 & N0' & A0). exists c0. split; [exact N0'|]. intros k0. destruct (A0 k0) as (B1 & B2 & B3).
          cbn [last_put]. split; [|split; assumption]. rewrite B1. split; intros [J|(op' & J & X)]; auto; [right; exists op'; split; [right; exact J|exact X]|].
          destruct J as [<-|J]; [|right; exists op'; split; assumption]. destruct X as (_ & [(Q & _)|(? & Q)]); [|discriminate Q]. congruence.
      + assert (NI : ~ In k (dkeys c)) by (apply dget_None, G). rewrite (A3 NI). assert (G0 : dget (content s) k = None) by (apply dget_None; intros J; apply NI, A1; left; exact J). rewrite G0. cbn [first_of]. split; [|reflexivity].
        apply after_same; [|reflexivity|exact A]. intros r0 k0 (HK0 & [(Q & s0 & v0 & N0 & F0)|(? & Q)]); [|discriminate Q]. injection Q as <- <-. congruence.
    - (* a write in a dictionary *)
      cbn [map_of made_on] in M. unfold make_assoc_property_map in M. destruct (nth_error h r) as [s|] eqn:N; [|discriminate M]. clear M.
      destruct (hashable k) eqn:HK.
      2: { cbn [fst snd rbind]. split; [|reflexivity]. apply after_same; [| |exact A].
           - intros r0 k0 (HK0 & [(Q & _)|(? & Q)]); [discriminate Q|]. injection Q as <- <-. congruence.
           - intros r0 k0. cbn [last_put]. rewrite HK, andb_false_r. reflexivity. }
      pose proof (A r) as Ar. rewrite N in Ar. destruct Ar as (c & N' & Ar). rewrite N'. cbn [fst snd rbind content factory with_content]. split; [|reflexivity].
      intros r0. rewrite (heap_set_nth h' r _ _ r0 N'). pose proof (A r0) as A0. destruct (BaseProofs.eqb_spec r0 r) as [->|NE].
      + rewrite N. exists (dset c k v). split; [reflexivity|]. intros k0. destruct (Ar k0) as (B1 & B2 & B3). cbn [last_put]. rewrite eqb_refl, HK. cbn [andb]. rewrite andb_true_r. rewrite In_dkeys_dset. split; [|split].
        * rewrite B1. split.
          -- intros [->|[J|(op' & J & X)]]; auto; right; [exists (PPut (AssocMap r) k v)|exists op']; (split; [cbn; auto|]); [split; [exact HK|right; eauto]|exact X].
          -- intros [J|(op' & [<-|J] & X)]; auto; [|right; right; exists op'; auto]. destruct X as (_ & [(Q & _)|(? & Q)]); [discriminate Q|]. injection Q as <- _. left. reflexivity.
        * intros J HK0. rewrite dget_dset. destruct (BaseProofs.eqb_spec k0 k) as [->|NK]; [rewrite eqb_refl; reflexivity|]. destruct (BaseProofs.eqb_spec k k0) as [E|_]; [congruence|]. apply B2; [destruct J; [contradiction|assumption]|exact HK0].
        * intros J. destruct (BaseProofs.eqb_spec k k0) as [E|_]; [destruct J; auto|]. apply B3. auto.
      + destruct (nth_error h r0) as [s0|] eqn:N0; [|exact A0]. destruct A0 as (c0 & N0' & A0). exists c0. split; [exact N0'|]. intros k0. destruct (A0 k0) as (B1 & B2 & B3).
        cbn [last_put]. destruct (BaseProofs.eqb_spec r r0) as [E|_]; [congruence|]. cbn [andb]. split; [|split; assumption]. rewrite B1. split; intros [J|(op' & J & X)]; auto; [right; exists op'; split; [right; exact J|exact X]|].
        destruct J as [<-|J]; [|right; exists op'; split; assumption]. destruct X as (_ & [(Q & _)|(? & Q)]); [discriminate Q|]. congruence.
  Qed.

  Lemma run_after h ops : forall h' hist, Forall (fun op => made_on h (map_of op)) ops -> after h h' hist ->
    after h (fst (pmap_run hashable h' ops)) (rev ops ++ hist) /\
    forall i op, nth_error ops i = Some op ->
      nth_error (snd (pmap_run hashable h' ops)) i = Some (expected hashable h (rev (firstn i ops) ++ hist) op).
  Proof.
    induction ops as [|op ops IH]; intros h' hist M A; [split; [exact A|]; intros [|i] op X; discriminate X|].
    inversion M as [|? ? M1 M2]; subst. destruct (step_after h h' hist op M1 A) as (A1 & R1). cbn [pmap_run].
    destruct (pmap_step hashable h' op) as [h1 r]. cbn [fst snd] in *. destruct (IH h1 (op :: hist) M2 A1) as (A2 & R2). destruct (pmap_run hashable h1 ops) as [h2 rs]. cbn [fst snd] in *. split.
    - cbn [rev]. rewrite <- app_assoc. exact A2.
    - intros [|i] op' X; cbn [nth_error firstn] in *; [injection X as <-; rewrite R1; reflexivity|]. cbn [rev]. rewrite <- app_assoc. apply R2, X.
  Qed.
  Lemma after_nil h : after h h [].
  Proof.
    intros r. destruct (nth_error h r) as [s|] eqn:N; [|reflexivity]. exists (content s). destruct s as [dd f c]. split; [reflexivity|]. intros k. cbn [content factory]. split; [|split].
    - split; [auto|]. intros [I|(op & [] & _)]. exact I.
    - intros I _. apply key_dget in I. destruct I as (v & G). cbn [last_put first_of]. rewrite G. reflexivity.
    - reflexivity.
  Qed.
End C66.

(** Any history of reads, writes and deletions on any number of maps of any kind, which may share their dictionaries: each
    call returns what the history says, and a dictionary contains at the end its initial keys and the ones read or written. *)
Theorem C66_shared {O} `{EqDec O} hashable (h : heap O) ops :
  Forall (fun op => made_on h (map_of op)) ops ->
  (forall i op, nth_error ops i = Some op ->
    nth_error (snd (pmap_run hashable h ops)) i = Some (expected hashable h (rev (firstn i ops)) op)) /\
  (forall r s, nth_error h r = Some s -> exists c, nth_error (fst (pmap_run hashable h ops)) r = Some (with_content s c) /\
    forall k, In k (dkeys c) <-> In k (dkeys (content s)) \/ exists op, In op ops /\ touches hashable h op r k).
Proof.
  intros M. destruct (run_after hashable h ops h [] M (after_nil hashable h)) as (A & R). split.
  - intros i op N. rewrite (R i op N), app_nil_r. reflexivity.
  - intros r s N. specialize (A r). rewrite N, app_nil_r in A. destruct A as (c & N' & A). exists c. split; [exact N'|]. intros k. rewrite (proj1 (A k)).
    split; (intros [I|(op & I & X)]; [left; exact I|right; exists op; split; [apply in_rev in I || apply in_rev; exact I|exact X]]).
Qed.
Print Assumptions C66_shared.

(** Two maps on the same defaultdict, one on another and one on a defaultdict without a factory; a plain dict is rejected. *)
Definition c66_heap : heap nat := [Store true (Some 7) [(1, 2)]; Store true (Some 9) []; Store false None [(1, 1)]; Store true None [(1, 1)]].
Definition c66_ops : list (pmap_op nat) :=
  [PGet (AssocMap 0) 1; PPut (AssocMap 0) 3 4; PGet (AssocMap 1) 3; PDel (AssocMap 0) 3; PGet (AssocMap 0) 3; PPut (AssocMap 1) 3 8; PGet (AssocMap 0) 5;
   PPut (AssocMap 0) 100 1; PPut IdMap 1 1; PGet IdMap 6; PGet (FuncMap S) 6; PGet (ConstMap 5) 100; PGet (AssocMap 1) 3; PGet (AssocMap 3) 1; PGet (AssocMap 3) 2].
Example C66_shared_example : Forall (fun op => made_on c66_heap (map_of op)) c66_ops /\
  pmap_run (fun k => k <? 50) c66_heap c66_ops =
    ([Store true (Some 7) [(1, 2); (3, 4); (5, 7)]; Store true (Some 9) [(3, 8)]; Store false None [(1, 1)]; Store true None [(1, 1)]],
     [Ok (Some 2); Ok None; Ok (Some 9); Raise RuntimeError; Ok (Some 4); Ok None; Ok (Some 7); Raise TypeError; Raise RuntimeError;
      Ok (Some 6); Ok (Some 7); Ok (Some 5); Ok (Some 8); Ok (Some 1); Raise KeyError]) /\
  make_assoc_property_map c66_heap 2 = Raise TypeError.
Proof. split; [repeat constructor|]. split; vm_compute; reflexivity. Qed.
