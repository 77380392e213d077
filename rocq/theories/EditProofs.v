(** Lemmas on the edit distances. *)
From Verif Require Import Base BaseProofs SearchSpec EditDistance EditSpec.

Section P.
  Context {A : Type} {EA : EqDec A}.
  Implicit Types x y z : list A.

  (** alignments, with substitutions when cs holds and swaps when cw holds *)
  Inductive al (cs cw : bool) : nat -> list A -> list A -> Prop :=
  | al_nil : al cs cw 0 [] []
  | al_keep n a x y : al cs cw n x y -> al cs cw n (a :: x) (a :: y)
  | al_subst n a b x y : cs = true -> al cs cw n x y -> al cs cw (S n) (a :: x) (b :: y)
  | al_ins n b x y : al cs cw n x y -> al cs cw (S n) x (b :: y)
  | al_del n a x y : al cs cw n x y -> al cs cw (S n) (a :: x) y
  | al_swap n a b x y : cw = true -> al cs cw n x y -> al cs cw (S n) (a :: b :: x) (b :: a :: y).

  Section Any.
    Variables cs cw : bool.
    Notation al := (al cs cw).
    Lemma al_refl x : al 0 x x.
    Proof. induction x; constructor; assumption. Qed.
    Lemma al_sym n x y : al n x y -> al n y x.
    Proof. induction 1; constructor; assumption. Qed.
    Lemma al_0 x y : al 0 x y -> x = y.
    Proof. remember 0 as n. intros H. induction H; try discriminate; [reflexivity|f_equal; auto]. Qed.
    Lemma al_nil_l y : al (length y) [] y.
    Proof. induction y; constructor; assumption. Qed.
    Lemma al_nil_r x : al (length x) x [].
    Proof. induction x; constructor; assumption. Qed.
    Lemma al_nil_l_inv n y : al n [] y -> length y <= n.
    Proof. remember [] as x. intros H. revert Heqx. induction H; intros X; try discriminate; cbn; [lia|]. specialize (IHal X). lia. Qed.
    Lemma al_nil_r_inv n x : al n x [] -> length x <= n.
    Proof. intros H. apply al_nil_l_inv, al_sym, H. Qed.
    Lemma al_tail_l n a x y : al n (a :: x) y -> exists m, m <= S n /\ al m x y.
    Proof.
      remember (a :: x) as z. intros H. revert Heqz. induction H as [|n b z y H IH|n b c z y C H IH|n b z y H IH|n b z y H IH|n b c z y C H IH]; intros X; try discriminate.
      - injection X as -> ->. exists (S n). split; [lia|]. constructor. exact H.
      - injection X as -> ->. exists (S n). split; [lia|]. constructor. exact H.
      - destruct (IH X) as (m & L & K). exists (S m). split; [lia|]. constructor. exact K.
      - injection X as -> ->. exists n. split; [lia|exact H].
      - injection X as -> <-. exists (S n). split; [lia|]. constructor. constructor. exact H.
    Qed.
    Lemma al_tail_r n b x y : al n x (b :: y) -> exists m, m <= S n /\ al m x y.
    Proof. intros H. apply al_sym, al_tail_l in H. destruct H as (m & L & K). exists m. split; [exact L|apply al_sym, K]. Qed.
    Lemma al_head n a x y : al n (a :: x) (a :: y) -> exists m, m <= n /\ al m x y.
    Proof.
      intros H. inversion H as [|? ? ? ? K|? ? ? ? ? _ K|? ? ? ? K|? ? ? ? K|? ? ? ? ? _ K]; subst.
      - exists n. auto.
      - eexists. split; [|exact K]. lia.
      - apply al_tail_l in K. exact K.
      - apply al_tail_r in K. exact K.
      - eexists. split; [|constructor; exact K]. lia.
    Qed.
  End Any.

  (** the recursions compute the least alignments *)
  Lemma lev_cons a x b y : lev (a :: x) (b :: y) = if eqb a b then lev x y else S (Nat.min (Nat.min (lev x (b :: y)) (lev (a :: x) y)) (lev x y)).
  Proof. reflexivity. Qed.
  Lemma lev_nil_r x : lev x [] = length x.
  Proof. destruct x; reflexivity. Qed.
  Lemma lev_nil_l y : lev [] y = length y.
  Proof. destruct y; reflexivity. Qed.
  Lemma lev_al x : forall y, al true false (lev x y) x y.
  Proof.
    induction x as [|a x IH]; [intros y; rewrite lev_nil_l; apply al_nil_l|]. induction y as [|b y IHy]; [apply al_nil_r|]. rewrite lev_cons.
    destruct (eqb_spec a b) as [->|N]; [apply al_keep, IH|].
    destruct (Nat.min_spec (lev x (b :: y)) (lev (a :: x) y)) as [[_ ->]|[_ ->]].
    - destruct (Nat.min_spec (lev x (b :: y)) (lev x y)) as [[_ ->]|[_ ->]]; [apply al_del, IH|apply al_subst; [reflexivity|apply IH]].
    - destruct (Nat.min_spec (lev (a :: x) y) (lev x y)) as [[_ ->]|[_ ->]]; [apply al_ins, IHy|apply al_subst; [reflexivity|apply IH]].
  Qed.
  Lemma lev_least k : forall x y n, length x + length y <= k -> al true false n x y -> lev x y <= n.
  Proof.
    induction k as [|k IH]; intros x y n L H.
    - destruct x, y; cbn in *; lia.
    - destruct x as [|a x]; [rewrite lev_nil_l; apply (al_nil_l_inv _ _ _ _ H)|]. destruct y as [|b y]; [rewrite lev_nil_r; apply (al_nil_r_inv _ _ _ _ H)|].
      rewrite lev_cons. cbn in L. destruct (eqb_spec a b) as [->|N].
      + apply al_head in H. destruct H as (m & Lm & H). apply IH in H; lia.
      + inversion H as [|? ? ? ? K|? ? ? ? ? _ K|? ? ? ? K|? ? ? ? K|? ? ? ? ? C K]; subst; [contradiction| | | |discriminate]; apply IH in K; cbn [length]; lia.
  Qed.

  Lemma lcsd_cons a x b y : lcsd (a :: x) (b :: y) = if eqb a b then lcsd x y else S (Nat.min (lcsd x (b :: y)) (lcsd (a :: x) y)).
  Proof. reflexivity. Qed.
  Lemma lcsd_nil_r x : lcsd x [] = length x.
  Proof. destruct x; reflexivity. Qed.
  Lemma lcsd_nil_l y : lcsd [] y = length y.
  Proof. destruct y; reflexivity. Qed.
  Lemma lcsd_al x : forall y, al false false (lcsd x y) x y.
  Proof.
    induction x as [|a x IH]; [intros y; rewrite lcsd_nil_l; apply al_nil_l|]. induction y as [|b y IHy]; [apply al_nil_r|]. rewrite lcsd_cons.
    destruct (eqb_spec a b) as [->|N]; [apply al_keep, IH|].
    destruct (Nat.min_spec (lcsd x (b :: y)) (lcsd (a :: x) y)) as [[_ ->]|[_ ->]]; [apply al_del, IH|apply al_ins, IHy].
  Qed.
  Lemma lcsd_least k : forall x y n, length x + length y <= k -> al false false n x y -> lcsd x y <= n.
  Proof.
    induction k as [|k IH]; intros x y n L H.
    - destruct x, y; cbn in *; lia.
    - destruct x as [|a x]; [rewrite lcsd_nil_l; apply (al_nil_l_inv _ _ _ _ H)|]. destruct y as [|b y]; [rewrite lcsd_nil_r; apply (al_nil_r_inv _ _ _ _ H)|].
      rewrite lcsd_cons. cbn in L. destruct (eqb_spec a b) as [->|N].
      + apply al_head in H. destruct H as (m & Lm & H). apply IH in H; lia.
      + inversion H as [|? ? ? ? K|? ? ? ? ? C K|? ? ? ? K|? ? ? ? K|? ? ? ? ? C K]; subst; [contradiction|discriminate| | |discriminate]; apply IH in K; cbn [length]; lia.
  Qed.

  Lemma osa_cons a x b y : osa (a :: x) (b :: y) = if eqb a b then osa x y else
    let d := Nat.min (Nat.min (osa x (b :: y)) (osa (a :: x) y)) (osa x y) in
    match x, y with a' :: x2, b' :: y2 => if eqb a b' && eqb a' b then S (Nat.min d (osa x2 y2)) else S d | _, _ => S d end.
  Proof. reflexivity. Qed.
  Lemma osa_nil_r x : osa x [] = length x.
  Proof. destruct x; reflexivity. Qed.
  Lemma osa_nil_l y : osa [] y = length y.
  Proof. destruct y; reflexivity. Qed.
  Lemma osa_al k : forall x y, length x + length y <= k -> al true true (osa x y) x y.
  Proof.
    induction k as [|k IH]; intros x y L.
    - destruct x, y; cbn in *; try lia. constructor.
    - destruct x as [|a x]; [rewrite osa_nil_l; apply al_nil_l|]. destruct y as [|b y]; [rewrite osa_nil_r; apply al_nil_r|]. rewrite osa_cons. cbn [length] in L.
      destruct (eqb_spec a b) as [->|N]; [apply al_keep, IH; lia|].
      set (d := Nat.min (Nat.min (osa x (b :: y)) (osa (a :: x) y)) (osa x y)).
      assert (D : al true true (S d) (a :: x) (b :: y)).
      { unfold d. destruct (Nat.min_spec (osa x (b :: y)) (osa (a :: x) y)) as [[_ ->]|[_ ->]].
        - destruct (Nat.min_spec (osa x (b :: y)) (osa x y)) as [[_ ->]|[_ ->]]; [apply al_del, IH|apply al_subst; [reflexivity|apply IH]]; cbn [length]; lia.
        - destruct (Nat.min_spec (osa (a :: x) y) (osa x y)) as [[_ ->]|[_ ->]]; [apply al_ins, IH|apply al_subst; [reflexivity|apply IH]]; cbn [length]; lia. }
      clearbody d. cbv zeta. destruct x as [|a' x]; [exact D|]. destruct y as [|b' y]; [exact D|].
      destruct (eqb_spec a b') as [<-|]; [|exact D]. destruct (eqb_spec a' b) as [->|]; [|exact D]. cbn [andb].
      destruct (Nat.min_spec d (osa x y)) as [[_ ->]|[_ ->]]; [exact D|]. apply al_swap; [reflexivity|]. apply IH. cbn [length] in L. lia.
  Qed.
  Lemma osa_least k : forall x y n, length x + length y <= k -> al true true n x y -> osa x y <= n.
  Proof.
    induction k as [|k IH]; intros x y n L H.
    - destruct x, y; cbn in *; lia.
    - destruct x as [|a x]; [rewrite osa_nil_l; apply (al_nil_l_inv _ _ _ _ H)|]. destruct y as [|b y]; [rewrite osa_nil_r; apply (al_nil_r_inv _ _ _ _ H)|].
      rewrite osa_cons. cbn [length] in L. destruct (eqb_spec a b) as [->|N].
      + apply al_head in H. destruct H as (m & Lm & H). apply IH in H; lia.
      + set (d := Nat.min (Nat.min (osa x (b :: y)) (osa (a :: x) y)) (osa x y)). cbv zeta.
        assert (G : forall m, (forall x2 y2, x = b :: x2 -> y = a :: y2 -> S (Nat.min d (osa x2 y2)) <= m) -> ((~ exists x2 y2, x = b :: x2 /\ y = a :: y2) -> S d <= m) ->
          match x, y with a' :: x2, b' :: y2 => if eqb a b' && eqb a' b then S (Nat.min d (osa x2 y2)) else S d | _, _ => S d end <= m).
        { clearbody d. intros m G1 G2. destruct x as [|a' x2]; [apply G2; intros (? & ? & X & _); discriminate|]. destruct y as [|b' y2]; [apply G2; intros (? & ? & _ & X); discriminate|].
          destruct (eqb_spec a b') as [<-|N1]; [|apply G2; intros (? & ? & _ & X); injection X; congruence]. destruct (eqb_spec a' b) as [->|N2]; [|apply G2; intros (? & ? & X & _); injection X; congruence].
          apply G1; reflexivity. }
        assert (G' : S d <= n -> match x, y with a' :: x2, b' :: y2 => if eqb a b' && eqb a' b then S (Nat.min d (osa x2 y2)) else S d | _, _ => S d end <= n).
        { intros X. apply G; [intros; lia|auto]. }
        inversion H as [|? ? ? ? K|? ? ? ? ? _ K|? ? ? ? K|? ? ? ? K|? ? ? ? ? C K]; subst; [contradiction| | | |].
        * apply G'. apply IH in K; [unfold d|cbn [length]]; lia.
        * apply G'. apply IH in K; [unfold d|cbn [length]]; lia.
        * apply G'. apply IH in K; [unfold d|cbn [length]]; lia.
        * apply G; [|intros X; destruct X; eauto]. intros x2 y2 [= <-] [= <-]. cbn [length] in L. apply IH in K; lia.
  Qed.

  (** composition, without swaps *)
  Lemma al_trans cs k : forall x y z n m, length x + length y + length z <= k -> al cs false n x y -> al cs false m y z -> exists p, p <= n + m /\ al cs false p x z.
  Proof.
    induction k as [|k IH]; intros x y z n m L H1 H2.
    - destruct x, y, z; cbn in L; try lia. exists 0. split; [lia|constructor].
    - assert (IH' : forall x y z n m, al cs false n x y -> al cs false m y z -> length x + length y + length z <= k -> exists p, p <= n + m /\ al cs false p x z) by (intros; eapply IH; eassumption).
      inversion H2 as [X1 X2 X3|m' c y' z' K X1 X2 X3|m' c c' y' z' C K X1 X2 X3|m' c y' z' K X1 X2 X3|m' c y' z' K X1 X2 X3|? ? ? ? ? C]; subst; try discriminate C.
      + exists n. split; [lia|exact H1].
      + inversion H1 as [|n' a x' y'' J|n' a b x' y'' C J|n' b x' y'' J|n' a x' y'' J|? ? ? ? ? C]; subst; try discriminate C; cbn [length] in L.
        * destruct (IH' _ _ _ _ _ J K) as (p & P1 & P2); [cbn [length]; lia|]. exists p. split; [lia|]. apply al_keep, P2.
        * destruct (IH' _ _ _ _ _ J K) as (p & P1 & P2); [cbn [length]; lia|]. exists (S p). split; [lia|]. apply al_subst, P2. reflexivity.
        * destruct (IH' _ _ _ _ _ J K) as (p & P1 & P2); [cbn [length]; lia|]. exists (S p). split; [lia|]. apply al_ins, P2.
        * destruct (IH' _ _ (c :: z') _ m J H2) as (p & P1 & P2); [cbn [length]; lia|]. exists (S p). split; [lia|]. apply al_del, P2.
      + inversion H1 as [|n' a x' y'' J|n' a b x' y'' C J|n' b x' y'' J|n' a x' y'' J|? ? ? ? ? C]; subst; try discriminate C; cbn [length] in L.
        * destruct (IH' _ _ _ _ _ J K) as (p & P1 & P2); [cbn [length]; lia|]. exists (S p). split; [lia|]. apply al_subst, P2. reflexivity.
        * destruct (IH' _ _ _ _ _ J K) as (p & P1 & P2); [cbn [length]; lia|]. exists (S p). split; [lia|]. apply al_subst, P2. reflexivity.
        * destruct (IH' _ _ _ _ _ J K) as (p & P1 & P2); [cbn [length]; lia|]. exists (S p). split; [lia|]. apply al_ins, P2.
        * destruct (IH' _ _ (c' :: z') _ (S m') J H2) as (p & P1 & P2); [cbn [length]; lia|]. exists (S p). split; [lia|]. apply al_del, P2.
      + cbn [length] in L. destruct (IH' _ _ _ _ _ H1 K) as (p & P1 & P2); [cbn [length]; lia|]. exists (S p). split; [lia|]. apply al_ins, P2.
      + inversion H1 as [|n' a x' y'' J|n' a b x' y'' C J|n' b x' y'' J|n' a x' y'' J|? ? ? ? ? C]; subst; try discriminate C; cbn [length] in L.
        * destruct (IH' _ _ _ _ _ J K) as (p & P1 & P2); [cbn [length]; lia|]. exists (S p). split; [lia|]. apply al_del, P2.
        * destruct (IH' _ _ _ _ _ J K) as (p & P1 & P2); [cbn [length]; lia|]. exists (S p). split; [lia|]. apply al_del, P2.
        * destruct (IH' _ _ _ _ _ J K) as (p & P1 & P2); [cbn [length]; lia|]. exists p. split; [lia|exact P2].
        * destruct (IH' _ _ z _ (S m') J H2) as (p & P1 & P2); [cbn [length]; lia|]. exists (S p). split; [lia|]. apply al_del, P2.
  Qed.

  (** alignments and sequences of edits *)
  Lemma al_app cs cw n l x y : al cs cw n x y -> al cs cw n (l ++ x) (l ++ y).
  Proof. intros H. induction l as [|a l IH]; [exact H|]. apply al_keep, IH. Qed.
  Lemma indel_al cs x y : indel x y -> al cs false 1 x y.
  Proof. intros [l a r|l a r]; apply al_app; constructor; apply al_refl. Qed.
  Lemma edit_al x y : edit x y -> al true false 1 x y.
  Proof. intros [x' y' H|l a b r]; [apply indel_al, H|]. apply al_app, al_subst, al_refl. reflexivity. Qed.
  Lemma walk_al cs (R : list A -> list A -> Prop) : (forall x y, R x y -> al cs false 1 x y) -> forall n x y, walk R n x y -> exists m, m <= n /\ al cs false m x y.
  Proof.
    intros H n x y W. induction W as [x|n x y z S W (m & L & K)]; [exists 0; split; [lia|apply al_refl]|].
    destruct (al_trans cs _ _ _ _ _ _ (le_n _) (H _ _ S) K) as (p & P1 & P2). exists p. split; [lia|exact P2].
  Qed.
  Lemma walk_cons (R : list A -> list A -> Prop) a : (forall x y, R x y -> R (a :: x) (a :: y)) -> forall n x y, walk R n x y -> walk R n (a :: x) (a :: y).
  Proof. intros H n x y W. induction W; econstructor; [apply H; eassumption|assumption]. Qed.
  Lemma indel_cons a x y : indel x y -> indel (a :: x) (a :: y).
  Proof. intros [l b r|l b r]; [apply (ins (a :: l))|apply (del (a :: l))]. Qed.
  Lemma edit_cons a x y : edit x y -> edit (a :: x) (a :: y).
  Proof. intros [x' y' H|l b c r]; [apply edit_indel, indel_cons, H|apply (subst (a :: l))]. Qed.
  Lemma al_edits n x y : al true false n x y -> walk edit n x y.
  Proof.
    induction 1 as [|n a x y H IH|n a b x y C H IH|n b x y H IH|n a x y H IH|? ? ? ? ? C]; [constructor| | | | |discriminate C].
    - apply walk_cons; [apply edit_cons|exact IH].
    - econstructor; [apply (subst [] a b)|]. apply walk_cons; [apply edit_cons|exact IH].
    - econstructor; [apply edit_indel, (ins [] b)|]. apply walk_cons; [apply edit_cons|exact IH].
    - econstructor; [apply edit_indel, (del [] a)|]. exact IH.
  Qed.
  Lemma al_indels n x y : al false false n x y -> walk indel n x y.
  Proof.
    induction 1 as [|n a x y H IH|n a b x y C H IH|n b x y H IH|n a x y H IH|? ? ? ? ? C]; [constructor| |discriminate C| | |discriminate C].
    - apply walk_cons; [apply indel_cons|exact IH].
    - econstructor; [apply (ins [] b)|]. apply walk_cons; [apply indel_cons|exact IH].
    - econstructor; [apply (del [] a)|]. exact IH.
  Qed.
  Lemma al_blocks n x y : al true true n x y <-> blocks n x y.
  Proof. split; induction 1; [apply bl_nil|apply bl_keep; assumption|apply bl_subst; assumption|apply bl_ins; assumption|apply bl_del; assumption|apply bl_swap; assumption|apply al_nil|apply al_keep; assumption|apply al_subst; auto|apply al_ins; assumption|apply al_del; assumption|apply al_swap; auto]. Qed.

  Lemma lev_spec x y : least edit x y (lev x y).
  Proof.
    split; [apply al_edits, lev_al|]. intros n W. destruct (walk_al true edit edit_al n x y W) as (m & L & K). apply (lev_least _ _ _ _ (le_n _)) in K. lia.
  Qed.
  Lemma lcsd_spec x y : least indel x y (lcsd x y).
  Proof.
    split; [apply al_indels, lcsd_al|]. intros n W. destruct (walk_al false indel (indel_al false) n x y W) as (m & L & K). apply (lcsd_least _ _ _ _ (le_n _)) in K. lia.
  Qed.
  Lemma osa_spec x y : blocks (osa x y) x y /\ forall n, blocks n x y -> osa x y <= n.
  Proof.
    split; [apply al_blocks, (osa_al _ _ _ (le_n _))|]. intros n W. apply al_blocks in W. apply (osa_least _ _ _ _ (le_n _) W).
  Qed.

  Lemma lev_metric : separated lev /\ symmetric lev /\ triangular lev.
  Proof.
    assert (LE : forall x y n, al true false n x y -> lev x y <= n) by (intros x y n; apply (lev_least _ _ _ _ (le_n _))).
    split; [|split].
    - intros x y. split; [intros H; apply (al_0 true false); rewrite <- H; apply lev_al|]. intros <-. pose proof (LE x x 0 (al_refl _ _ _)). lia.
    - intros x y. apply Nat.le_antisymm; apply LE, al_sym, lev_al.
    - intros x y z. destruct (al_trans true _ x y z _ _ (le_n _) (lev_al x y) (lev_al y z)) as (p & L & K). apply LE in K. lia.
  Qed.
  Lemma lcsd_metric : separated lcsd /\ symmetric lcsd /\ triangular lcsd.
  Proof.
    assert (LE : forall x y n, al false false n x y -> lcsd x y <= n) by (intros x y n; apply (lcsd_least _ _ _ _ (le_n _))).
    split; [|split].
    - intros x y. split; [intros H; apply (al_0 false false); rewrite <- H; apply lcsd_al|]. intros <-. pose proof (LE x x 0 (al_refl _ _ _)). lia.
    - intros x y. apply Nat.le_antisymm; apply LE, al_sym, lcsd_al.
    - intros x y z. destruct (al_trans false _ x y z _ _ (le_n _) (lcsd_al x y) (lcsd_al y z)) as (p & L & K). apply LE in K. lia.
  Qed.
  Lemma osa_semimetric : separated osa /\ symmetric osa.
  Proof.
    assert (LE : forall x y n, al true true n x y -> osa x y <= n) by (intros x y n; apply (osa_least _ _ _ _ (le_n _))).
    split.
    - intros x y. split; [intros H; apply (al_0 true true); rewrite <- H; apply (osa_al _ _ _ (le_n _))|]. intros <-. pose proof (LE x x 0 (al_refl _ _ _)). lia.
    - intros x y. apply Nat.le_antisymm; apply LE, al_sym, (osa_al _ _ _ (le_n _)).
  Qed.

  (** common subsequences *)
  Lemma al_common n x y : al false false n x y -> exists s, subsequence s x /\ subsequence s y /\ n + 2 * length s = length x + length y.
  Proof.
    induction 1 as [|n a x y H (s & S1 & S2 & L)|n a b x y C H IH|n b x y H (s & S1 & S2 & L)|n a x y H (s & S1 & S2 & L)|? ? ? ? ? C]; try discriminate C.
    - exists []. repeat split; constructor.
    - exists (a :: s). split; [constructor; exact S1|]. split; [constructor; exact S2|]. cbn [length]. lia.
    - exists s. split; [exact S1|]. split; [constructor; exact S2|]. cbn [length]. lia.
    - exists s. split; [constructor; exact S1|]. split; [exact S2|]. cbn [length]. lia.
  Qed.
  Lemma common_al s x : subsequence s x -> forall y, subsequence s y -> exists n, al false false n x y /\ n + 2 * length s = length x + length y.
  Proof.
    assert (N : forall y : list A, subsequence [] y) by (induction y; constructor; assumption).
    induction 1 as [|a s x S IH|a s x S IH].
    - intros y _. exists (length y). split; [apply al_nil_l|cbn; lia].
    - intros y Sy. remember (a :: s) as s'. induction Sy as [|b s2 y Sy IHy|b s2 y Sy IHy]; [discriminate| |].
      + injection Heqs' as -> ->. destruct (IH y Sy) as (n & K & L). exists n. split; [apply al_keep, K|cbn [length]; lia].
      + destruct (IHy Heqs') as (n & K & L). exists (Datatypes.S n). split; [apply al_ins, K|cbn [length] in *; lia].
    - intros y Sy. destruct (IH y Sy) as (n & K & L). exists (Datatypes.S n). split; [apply al_del, K|cbn [length]; lia].
  Qed.
  Lemma lcsd_common x y : exists l, longest_common x y l /\ lcsd x y + 2 * l = length x + length y.
  Proof.
    destruct (al_common _ _ _ (lcsd_al x y)) as (s & S1 & S2 & L). exists (length s). split; [|exact L]. split; [exists s; auto|].
    intros s' S1' S2'. destruct (common_al _ _ S1' _ S2') as (n & K & L'). apply (lcsd_least _ _ _ _ (le_n _)) in K. lia.
  Qed.

  (** memoization *)
  Section Memo.
    Variables (x y : list A).
    Definition valid (f : list A -> list A -> nat) (t : memo) : Prop :=
      forall i j d, dget t (i, j) = Some d -> d = f (skipn i x) (skipn j y).
    Lemma valid_dset f t i j d : valid f t -> d = f (skipn i x) (skipn j y) -> valid f (dset t (i, j) d).
    Proof. intros V E i' j' d'. rewrite dget_dset. destruct (eqb_spec (i', j') (i, j)) as [[= -> ->]|]; [intros [= <-]; exact E|apply V]. Qed.
    Lemma skipn_nth (l : list A) i : i < length l -> exists a, nth_error l i = Some a /\ skipn i l = a :: skipn (i + 1) l.
    Proof.
      revert i. induction l as [|a l IH]; intros i L; cbn in L; [lia|]. destruct i as [|i]; [exists a; auto|]. destruct (IH i) as (b & H1 & H2); [lia|]. exists b. split; [exact H1|exact H2].
    Qed.
    Lemma skipn_length_eq (l : list A) i : length (skipn i l) = length l - i.
    Proof. apply skipn_length. Qed.

    Lemma lev_memo fuel : forall i j t, i <= length x -> j <= length y -> (length x - i) + (length y - j) < fuel -> valid lev t ->
      exists t', lev_compute fuel x y i j t = Some (lev (skipn i x) (skipn j y), t') /\ valid lev t'.
    Proof.
      induction fuel as [|fuel IH]; intros i j t Li Lj LF V; [lia|]. cbn [lev_compute]. destruct (dget t (i, j)) as [d|] eqn:G; [rewrite <- (V _ _ _ G); exists t; auto|].
      assert (FIN : forall m, (exists t', m = Some (lev (skipn i x) (skipn j y), t') /\ valid lev t') -> exists t', remember i j m = Some (lev (skipn i x) (skipn j y), t') /\ valid lev t').
      { intros m (t' & -> & V'). eexists. split; [reflexivity|]. apply valid_dset; [exact V'|reflexivity]. }
      apply FIN. clear FIN G. destruct (Nat.ltb_spec j (length y)) as [Hj|Hj]; cbn [negb].
      - destruct (Nat.ltb_spec i (length x)) as [Hi|Hi]; cbn [negb].
        + destruct (skipn_nth x i Hi) as (a & Na & Sa), (skipn_nth y j Hj) as (b & Nb & Sb). unfold same. rewrite Na, Nb, Sa, Sb, lev_cons.
          destruct (eqb a b); [apply IH; try lia; assumption|]. rewrite <- Sa, <- Sb.
          destruct (IH (i + 1) j t) as (t1 & -> & V1); try lia; try assumption. cbn [mbind].
          destruct (IH i (j + 1) t1) as (t2 & -> & V2); try lia; try assumption. cbn [mbind].
          destruct (IH (i + 1) (j + 1) t2) as (t3 & -> & V3); try lia; try assumption. cbn [mbind]. exists t3. auto.
        + exists t. split; [|exact V]. replace (skipn i x) with (@nil A) by (symmetry; apply skipn_all2; lia). rewrite lev_nil_l, skipn_length. reflexivity.
      - exists t. split; [|exact V]. replace (skipn j y) with (@nil A) by (symmetry; apply skipn_all2; lia). rewrite lev_nil_r, skipn_length. reflexivity.
    Qed.
    Lemma lcs_memo fuel : forall i j t, i <= length x -> j <= length y -> (length x - i) + (length y - j) < fuel -> valid lcsd t ->
      exists t', lcs_compute fuel x y i j t = Some (lcsd (skipn i x) (skipn j y), t') /\ valid lcsd t'.
    Proof.
      induction fuel as [|fuel IH]; intros i j t Li Lj LF V; [lia|]. cbn [lcs_compute]. destruct (dget t (i, j)) as [d|] eqn:G; [rewrite <- (V _ _ _ G); exists t; auto|].
      assert (FIN : forall m, (exists t', m = Some (lcsd (skipn i x) (skipn j y), t') /\ valid lcsd t') -> exists t', remember i j m = Some (lcsd (skipn i x) (skipn j y), t') /\ valid lcsd t').
      { intros m (t' & -> & V'). eexists. split; [reflexivity|]. apply valid_dset; [exact V'|reflexivity]. }
      apply FIN. clear FIN G. destruct (Nat.ltb_spec j (length y)) as [Hj|Hj]; cbn [negb].
      - destruct (Nat.ltb_spec i (length x)) as [Hi|Hi]; cbn [negb].
        + destruct (skipn_nth x i Hi) as (a & Na & Sa), (skipn_nth y j Hj) as (b & Nb & Sb). unfold same. rewrite Na, Nb, Sa, Sb, lcsd_cons.
          destruct (eqb a b); [apply IH; try lia; assumption|]. rewrite <- Sa, <- Sb.
          destruct (IH (i + 1) j t) as (t1 & -> & V1); try lia; try assumption. cbn [mbind].
          destruct (IH i (j + 1) t1) as (t2 & -> & V2); try lia; try assumption. cbn [mbind]. exists t2. auto.
        + exists t. split; [|exact V]. replace (skipn i x) with (@nil A) by (symmetry; apply skipn_all2; lia). rewrite lcsd_nil_l, skipn_length. reflexivity.
      - exists t. split; [|exact V]. replace (skipn j y) with (@nil A) by (symmetry; apply skipn_all2; lia). rewrite lcsd_nil_r, skipn_length. reflexivity.
    Qed.
    Lemma dam_memo fuel : forall i j t, i <= length x -> j <= length y -> (length x - i) + (length y - j) < fuel -> valid osa t ->
      exists t', dam_compute fuel x y i j t = Some (osa (skipn i x) (skipn j y), t') /\ valid osa t'.
    Proof.
      induction fuel as [|fuel IH]; intros i j t Li Lj LF V; [lia|]. cbn [dam_compute]. destruct (dget t (i, j)) as [d|] eqn:G; [rewrite <- (V _ _ _ G); exists t; auto|].
      assert (FIN : forall m, (exists t', m = Some (osa (skipn i x) (skipn j y), t') /\ valid osa t') -> exists t', remember i j m = Some (osa (skipn i x) (skipn j y), t') /\ valid osa t').
      { intros m (t' & -> & V'). eexists. split; [reflexivity|]. apply valid_dset; [exact V'|reflexivity]. }
      apply FIN. clear FIN G. destruct (Nat.ltb_spec j (length y)) as [Hj|Hj]; cbn [negb].
      - destruct (Nat.ltb_spec i (length x)) as [Hi|Hi]; cbn [negb].
        + destruct (skipn_nth x i Hi) as (a & Na & Sa), (skipn_nth y j Hj) as (b & Nb & Sb). unfold same at 1. rewrite Na, Nb.
          assert (OC := osa_cons a (skipn (i + 1) x) b (skipn (j + 1) y)). rewrite <- Sa, <- Sb in OC. rewrite OC. clear OC.
          destruct (eqb a b); [apply IH; try lia; assumption|]. cbv zeta.
          destruct (IH (i + 1) j t) as (t1 & -> & V1); try lia; try assumption. cbn [mbind].
          destruct (IH i (j + 1) t1) as (t2 & -> & V2); try lia; try assumption. cbn [mbind].
          destruct (IH (i + 1) (j + 1) t2) as (t3 & -> & V3); try lia; try assumption. cbn [mbind].
          destruct (Nat.ltb_spec (i + 1) (length x)) as [Hi'|Hi']; cbn [andb].
          * destruct (Nat.ltb_spec (j + 1) (length y)) as [Hj'|Hj']; cbn [andb].
            -- destruct (skipn_nth x (i + 1) Hi') as (a' & Na' & Sa'), (skipn_nth y (j + 1) Hj') as (b' & Nb' & Sb'). unfold same. rewrite Na, Nb, Na', Nb'.
               replace (i + 1 + 1) with (i + 2) in Sa' by lia. replace (j + 1 + 1) with (j + 2) in Sb' by lia.
               destruct (eqb a b' && eqb a' b) eqn:AB; [|exists t3; split; [|exact V3]; rewrite Sa', Sb', AB; reflexivity].
               destruct (IH (i + 2) (j + 2) t3) as (t4 & -> & V4); try lia; try assumption. cbn [mbind]. exists t4. split; [|exact V4]. rewrite Sa', Sb', AB. reflexivity.
            -- exists t3. split; [|exact V3]. replace (skipn (j + 1) y) with (@nil A) by (symmetry; apply skipn_all2; lia). destruct (skipn (i + 1) x); reflexivity.
          * exists t3. split; [|exact V3]. replace (skipn (i + 1) x) with (@nil A) by (symmetry; apply skipn_all2; lia). reflexivity.
        + exists t. split; [|exact V]. replace (skipn i x) with (@nil A) by (symmetry; apply skipn_all2; lia). rewrite osa_nil_l, skipn_length. reflexivity.
      - exists t. split; [|exact V]. replace (skipn j y) with (@nil A) by (symmetry; apply skipn_all2; lia). rewrite osa_nil_r, skipn_length. reflexivity.
    Qed.
    Lemma valid_nil f : valid f [].
    Proof. intros i j d X. discriminate X. Qed.
  End Memo.
  Lemma levenshtein_eq x y : levenshtein_distance x y = Some (lev x y).
  Proof. unfold levenshtein_distance. destruct (lev_memo x y (S (length x + length y)) 0 0 []) as (t & -> & _); try lia; [apply valid_nil|reflexivity]. Qed.
  Lemma lcs_eq x y : lcs_distance x y = Some (lcsd x y).
  Proof. unfold lcs_distance. destruct (lcs_memo x y (S (length x + length y)) 0 0 []) as (t & -> & _); try lia; [apply valid_nil|reflexivity]. Qed.
  Lemma damerau_eq x y : damerau_levenshtein_distance x y = Some (osa x y).
  Proof. unfold damerau_levenshtein_distance. destruct (dam_memo x y (S (length x + length y)) 0 0 []) as (t & -> & _); try lia; [apply valid_nil|reflexivity]. Qed.
  Lemma damerau_naive_eq fuel : forall x y, length x + length y < fuel -> damerau_naive fuel x y = Some (osa x y).
  Proof.
    induction fuel as [|fuel IH]; intros x y L; [lia|]. cbn [damerau_naive]. destruct x as [|a x]; [destruct y; reflexivity|]. destruct y as [|b y]; [reflexivity|]. cbn [length] in L.
    rewrite osa_cons. rewrite !IH by (cbn [length]; lia). destruct (eqb a b); [reflexivity|]. cbv zeta. destruct x as [|a' x]; [reflexivity|]. destruct y as [|b' y]; [reflexivity|].
    destruct (eqb a b' && eqb a' b); [|reflexivity]. cbn [length] in L. rewrite IH by lia. reflexivity.
  Qed.
End P.
