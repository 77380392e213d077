(** Lemmas on [T_insert_self]. *)
From Verif Require Import Graph GraphProofs Automaton AutomatonSpec AutomatonProofs Trie PBFS PBFSProofs FusionSelf Base BaseProofs.

Section P.
  Context {A : Type} `{EqDec A}.

  Definition alike (g g' : aut A) : Prop := au_last g' = au_last g /\ au_adj g' = au_adj g /\ au_q0 g' = au_q0 g /\ forall q, au_final g' q = au_final g q.
  Lemma alike_refl g : alike g g. Proof. repeat split. Qed.
  Lemma alike_final g g' q r : alike g g' -> q = r -> alike g (if A_is_final g' q then A_set_final g' r true else g').
  Proof.
    intros (L & D & Q & F) ->. destruct (A_is_final g' r) eqn:E; [|repeat split; assumption]. unfold A_is_final in E. repeat split; try assumption.
    intros x. cbn. destruct (eqb_spec x r) as [->|_]; [rewrite <- F; auto|apply F].
  Qed.
  Lemma alike_delta g g' q a : alike g g' -> odelta g' q a = odelta g q a.
  Proof. intros (_ & D & _). unfold odelta, A_delta. rewrite D. reflexivity. Qed.
  Lemma alike_edge g g' q a : alike g g' -> get_edge g' q a = get_edge g q a.
  Proof. intros (_ & D & _). unfold get_edge, A_delta. rewrite D. reflexivity. Qed.

  Definition whites (g : aut A) (col : dict qpair color) : nat := length (filter (fun r => is_white (color_of col (r, r))) (otargets g)).
  Lemma color_dset (col : dict qpair color) k k' c : color_of (dset col k c) k' = if eqb k' k then c else color_of col k'.
  Proof. unfold color_of. rewrite dget_dset. destruct (eqb_spec k' k), (eqb_spec k k'); subst; try reflexivity; congruence. Qed.
  Lemma filter_one {X} `{EqDec X} (f g : X -> bool) x l : NoDup l -> In x l -> f x = true -> g x = false -> (forall y, y <> x -> g y = f y) ->
    length (filter f l) = S (length (filter g l)).
  Proof.
    induction l as [|y l IH]; intros ND I Fx Gx E; [destruct I|]. inversion ND as [|? ? NI ND']; subst. destruct (eqb_spec y x) as [->|N].
    - cbn. rewrite Fx, Gx. cbn. f_equal. f_equal. apply filter_ext_in. intros z Z. symmetry. apply E. intros ->. contradiction.
    - destruct I as [->|I]; [congruence|]. cbn. rewrite (E y N). destruct (f y); cbn; rewrite (IH ND' I Fx Gx E); reflexivity.
  Qed.
  Lemma whites_dset g col r c : In r (otargets g) -> is_white (color_of col (r, r)) = true -> is_white c = false -> whites g col = S (whites g (dset col (r, r) c)).
  Proof.
    intros I W C. unfold whites. apply (filter_one _ _ r); [apply NoDup_otargets|exact I|exact W| |].
    - rewrite color_dset, eqb_refl. exact C.
    - intros y N. rewrite color_dset. destruct (eqb_spec (y, y) (r, r)) as [E|_]; [congruence|reflexivity].
  Qed.
  Lemma whites_le g col k : whites g (dset col k BLACK) <= whites g col.
  Proof.
    unfold whites. induction (otargets g) as [|y l IH]; cbn; [lia|]. rewrite color_dset. destruct (eqb_spec (y, y) k); cbn; [destruct (is_white _); cbn; lia|].
    destruct (is_white (color_of col (y, y))); cbn; lia.
  Qed.

  Definition diag (p : qpair) : Prop := exists q, p = (q, q).

  Lemma self_symbols_spec g q syms : forall s stack col, alike g (fst s) -> Forall diag stack -> (forall a, In a syms -> odelta g q a <> None) ->
    exists s' stack' col', self_symbols q q syms s stack col = (s', stack', col', Ok tt) /\ alike g (fst s') /\ Forall diag stack' /\
      length stack' + whites g col' = length stack + whites g col.
  Proof.
    induction syms as [|a syms IH]; intros [h m] stack col L D S; cbn [fst] in L.
    - exists (h, m), stack, col. repeat split; try assumption; apply L.
    - cbn [self_symbols fst]. rewrite (alike_delta _ _ _ _ L), (alike_edge _ _ _ _ L).
      assert (Sa := S a (or_introl eq_refl)). destruct q as [q|]; [|cbn in Sa; congruence]. cbn [odelta get_edge] in *. destruct (A_delta g q a) as [r|] eqn:E; [|congruence].
      cbn [self_edge A_is_final_opt]. set (h' := if A_is_final h r then _ else _). assert (L' : alike g h') by (apply alike_final; [exact L|reflexivity]).
      destruct (is_white (color_of col (Some r, Some r))) eqn:W.
      + cbn [fusion_push]. destruct (IH (h', m) (stack ++ [(Some r, Some r)]) (dset col (Some r, Some r) GRAY) L') as (s' & st & c & -> & L2 & D2 & M).
        * apply Forall_app. split; [exact D|]. constructor; [exists (Some r); reflexivity|constructor].
        * intros b I. apply S. right. exact I.
        * exists s', st, c. repeat split; try assumption; try apply L2. rewrite M, app_length, (whites_dset g col (Some r) GRAY); [cbn; lia| |exact W|reflexivity].
          rewrite <- E. apply (In_otargets g (Some q) a).
      + apply IH; [exact L'|exact D|]. intros b I. apply S. right. exact I.
  Qed.

  Lemma self_loop_spec g ord : valid_order ord -> forall fuel n s stack col, alike g (fst s) -> Forall diag stack -> length stack + whites g col < fuel ->
    exists s', self_loop ord fuel n s stack col = Some (s', Ok tt) /\ alike g (fst s').
  Proof.
    intros O. induction fuel as [|fuel IH]; intros n s stack col L D F; [lia|]. cbn [self_loop]. destruct stack as [|[q1 q2] stack]; [exists s; split; [reflexivity|exact L]|].
    inversion D as [|? ? [q E] D']; subst. inversion E; subst. clear D E.
    destruct (self_symbols_spec g q (ord n (sunion (A_sigma (fst s) q) (A_sigma (fst s) q))) s stack col L D') as (s' & st & c & -> & L2 & D2 & M).
    - intros a I. apply (Permutation_in _ (O _ _)) in I. apply In_sunion in I. rewrite <- (alike_delta _ _ _ _ L). destruct I as [I|I]; apply In_sigma, I.
    - apply IH; [exact L2|exact D2|]. pose proof (whites_le g c (q, q)). cbn [length] in F. lia.
  Qed.

  Lemma insert_self_spec g ord fuel : valid_order ord -> A_num_edges g + 3 <= fuel -> exists g', T_insert_self ord fuel g = Some (g', Ok tt) /\ alike g g'.
  Proof.
    intros O F. unfold T_insert_self. cbn [self_start]. set (h := match A_initial g with Some _ => _ | None => _ end).
    assert (L : alike g h). { unfold h. destruct (A_initial g) as [q|]; [|apply alike_refl]. cbn. apply alike_final; [apply alike_refl|reflexivity]. }
    destruct (self_loop_spec g ord O fuel 0 (h, dset [] (A_initial g) (A_initial g)) [(A_initial g, A_initial g)] []) as ([g' m] & -> & L').
    - exact L.
    - constructor; [eexists; reflexivity|constructor].
    - cbn [length]. unfold whites. pose proof (length_otargets g) as X. assert (Y : length (filter (fun r => is_white (color_of [] (r, r))) (otargets g)) <= length (otargets g)) by (clear; induction (otargets g) as [|x l IHl]; cbn in *; lia). lia.
    - exists g'. split; [reflexivity|exact L'].
  Qed.
End P.
