(** Lemmas on read_graphviz with a visitor. *)
From Coq Require Import String.
From Verif Require Import Str Regexp Graph GraphSpec GraphProofs GraphProofs2 Graphviz GraphvizSpec GraphvizProofs GraphvizProofs2 ReadDotSpec ReadDotProofs ReadVis ReadVisSpec.
From Verif Require Import Base BaseProofs.
Open Scope string_scope.
Open Scope nat_scope.
Open Scope list_scope.
#[local] Arguments dkeys : simpl never.

(** ** The options of a line *)
Definition txt (o : option str) : str := match o with Some b => b | None => [] end.

Lemma opts_body_spec s b : opts_body s = Some b <->
  (exists body sp rest, b = body ++ lit "]" /\ s = b ++ sp ++ lit ";" ++ rest /\ ~ In 10%N body /\ spaces sp) /\
  forall body sp rest, s = body ++ lit "]" ++ sp ++ lit ";" ++ rest -> ~ In 10%N body -> spaces sp -> List.length body < List.length b.
Proof.
  revert b. induction s as [|c s IH]; intros b; cbn [opts_body].
  - split; [discriminate|]. intros [(body & sp & rest & -> & E & _) _]. destruct body; discriminate.
  - assert (NONE : opts_body s = None -> forall body sp rest, s = body ++ lit "]" ++ sp ++ lit ";" ++ rest -> ~ In 10%N body -> spaces sp -> False).
    { clear IH. induction s as [|d s IHs]; intros E body sp rest Es N SP; [destruct body; discriminate|]. cbn [opts_body] in E. destruct body as [|x body].
      - injection Es as -> Es. assert (M : match_semicolon s = true) by (apply match_semicolon_spec; exists sp, rest; auto). rewrite M in E. change (eqb 93%N (ch "]")) with true in E. change (eqb 93%N 10%N) with false in E. cbn [andb] in E. destruct (opts_body s); discriminate.
      - injection Es as Ed Es. subst d. destruct (eqb_spec x 10%N) as [EX|NX]; [apply N; left; exact EX|]. destruct (opts_body s) as [b'|] eqn:Eb; [discriminate|]. apply (IHs eq_refl body sp rest Es); [intros I; apply N; right; exact I|exact SP]. }
    destruct (eqb_spec c 10%N) as [->|NC].
    + split.
      * destruct (eqb_spec 10%N (ch "]")); [discriminate|]. discriminate.
      * intros [(body & sp & rest & -> & E & N & SP) _]. destruct body as [|x body]; [discriminate|]. injection E as <- _. destruct N. left. reflexivity.
    + destruct (opts_body s) as [b'|] eqn:Eb.
      * destruct (proj1 (IH b') eq_refl) as [(body & sp & rest & -> & Es & N & SP) MX]. split.
        -- intros [= <-]. split.
           ++ exists (c :: body), sp, rest. split; [reflexivity|]. split; [rewrite Es; reflexivity|]. split; [intros [->|I]; [apply NC; reflexivity|contradiction]|exact SP].
           ++ intros body1 sp1 rest1 E1 N1 SP1. destruct body1 as [|x body1]; [cbn; lia|]. injection E1 as _ E1. cbn [List.length]. apply -> Nat.succ_lt_mono. apply (MX body1 sp1 rest1 E1); [intros I; apply N1; right; exact I|exact SP1].
        -- intros [(body1 & sp1 & rest1 & -> & E1 & N1 & SP1) MX1]. f_equal. destruct body1 as [|x body1].
           ++ exfalso. specialize (MX1 (c :: body) sp rest). cbn [List.length app] in MX1. rewrite Es, <- app_assoc in MX1. specialize (MX1 eq_refl). cbn in MX1. assert (X : S (List.length body) < 1) by (apply MX1; [intros [->|I]; [apply NC; reflexivity|contradiction]|exact SP]). lia.
           ++ injection E1 as <- E1.
              assert (X : Some (body ++ lit "]") = Some (body1 ++ lit "]")); [|injection X as X; cbn [app]; rewrite X; reflexivity]. apply IH. split.
              ** exists body1, sp1, rest1. split; [reflexivity|]. split; [exact E1|]. split; [intros I; apply N1; right; exact I|exact SP1].
              ** intros body2 sp2 rest2 E2 N2 SP2. specialize (MX1 (c :: body2) sp2 rest2). cbn [List.length app] in MX1. apply Nat.succ_lt_mono. apply MX1; [rewrite E2; reflexivity|intros [->|I]; [apply NC; reflexivity|contradiction]|exact SP2].
      * specialize (NONE eq_refl). split.
        -- destruct (eqb_spec c (ch "]")) as [->|]; [|discriminate]. destruct (match_semicolon s) eqn:M; [|discriminate]. intros [= <-]. apply match_semicolon_spec in M. destruct M as (sp & rest & Es & SP). split.
           ++ exists [], sp, rest. split; [reflexivity|]. split; [rewrite Es; reflexivity|]. split; [intros []|exact SP].
           ++ intros body1 sp1 rest1 E1 N1 SP1. destruct body1 as [|x body1]; [cbn; lia|]. injection E1 as _ E1. exfalso. apply (NONE body1 sp1 rest1 E1); [intros I; apply N1; right; exact I|exact SP1].
        -- intros [(body1 & sp1 & rest1 & -> & E1 & N1 & SP1) _]. destruct body1 as [|x body1].
           ++ injection E1 as -> E1. assert (M : match_semicolon s = true) by (apply match_semicolon_spec; exists sp1, rest1; auto). rewrite M. reflexivity.
           ++ injection E1 as <- E1. exfalso. rewrite <- app_assoc in E1. apply (NONE body1 sp1 rest1 E1); [intros I; apply N1; right; exact I|exact SP1].
Qed.

Lemma skip_unique sp1 sp2 x y : spaces sp1 -> spaces sp2 -> match x with [] => True | c :: _ => isspace c = false end -> match y with [] => True | c :: _ => isspace c = false end -> sp1 ++ x = sp2 ++ y -> x = y.
Proof. intros S1 S2 X Y E. rewrite <- (skip_here sp1 x S1 X), <- (skip_here sp2 y S2 Y), E. reflexivity. Qed.
Lemma options_head o sp rest : options o -> spaces sp -> match o ++ sp ++ lit ";" ++ rest with [] => True | c :: _ => isspace c = false end \/ o = [].
Proof. intros [->|(b & -> & _)] _; [right; reflexivity|left; reflexivity]. Qed.

Lemma tail_empty r : tail_is r [] <-> match_semicolon r = true.
Proof.
  rewrite match_semicolon_spec. split.
  - intros (sp1 & sp2 & rest & -> & _ & S1 & S2). exists (sp1 ++ sp2), rest. split; [rewrite <- app_assoc; reflexivity|]. apply Forall_app. auto.
  - intros (sp & rest & -> & SP). exists sp, [], rest. split; [reflexivity|]. split; [left; reflexivity|]. split; [exact SP|constructor].
Qed.
Lemma tail_some r body : tail_is r (lit "[" ++ body ++ lit "]") <-> exists s sp rest, skip_spaces r = ch "[" :: s /\ s = body ++ lit "]" ++ sp ++ lit ";" ++ rest /\ ~ In 10%N body /\ spaces sp.
Proof.
  split.
  - intros (sp1 & sp2 & rest & -> & O & S1 & S2). rewrite <- !app_assoc. rewrite skip_here; [|exact S1|reflexivity]. exists (body ++ lit "]" ++ sp2 ++ lit ";" ++ rest), sp2, rest. split; [reflexivity|]. split; [reflexivity|]. split; [|exact S2].
    destruct O as [O|(b & O & N)]; [destruct body; discriminate|]. injection O as O. apply app_inj_tail in O. destruct O as [-> _]. exact N.
  - intros (s & sp & rest & E & -> & N & SP). destruct (skip_cut r) as (sp1 & Er & S1 & _). exists sp1, sp, rest. split; [rewrite Er, E, <- !app_assoc; reflexivity|]. split; [right; exists body; auto|]. auto.
Qed.
Lemma opts_group_spec r o : opts_group r = Some o -> carries r (txt o).
Proof.
  unfold opts_group. destruct (skip_spaces r) as [|c s] eqn:EK; [discriminate|].
  destruct (if eqb c (ch "[") then opts_body s else None) as [b|] eqn:EB.
  - destruct (eqb_spec c (ch "[")) as [->|]; [|discriminate]. intros [= <-]. apply opts_body_spec in EB. destruct EB as [(body & sp & rest & -> & Es & N & SP) MX]. cbn [txt]. split.
    + apply (tail_some r body). exists s, sp, rest. split; [exact EK|]. rewrite <- app_assoc in Es. auto.
    + intros o' T. assert (O := T). destruct O as (_ & _ & _ & _ & [->|(b' & -> & _)] & _); [cbn; lia|]. apply tail_some in T. destruct T as (s' & sp' & rest' & EK' & Es' & N' & SP'). rewrite EK in EK'. injection EK' as <-.
      specialize (MX b' sp' rest' Es' N' SP'). change (lit "[" ++ b' ++ lit "]") with (ch "[" :: b' ++ [ch "]"]). change (lit "]") with [ch "]"] in *. cbn [List.length]. rewrite !app_length in *. cbn [List.length] in *. lia.
  - destruct (match_semicolon r) eqn:M; [|discriminate]. intros [= <-]. cbn [txt]. split; [apply tail_empty, M|].
    intros o' T. assert (O := T). destruct O as (_ & _ & _ & _ & [->|(b' & -> & _)] & _); [cbn; lia|]. exfalso. apply tail_some in T. destruct T as (s' & sp' & rest' & EK' & Es' & N' & SP'). rewrite EK in EK'. injection EK' as -> ->.
    unfold match_semicolon in M. rewrite EK in M. discriminate.
Qed.
Lemma opts_group_some r : match_opts r = true <-> exists o, opts_group r = Some o.
Proof.
  unfold match_opts, opts_group. destruct (skip_spaces r) as [|c s] eqn:EK; [split; [discriminate|intros [o X]; discriminate]|].
  assert (B : match_opts_body s = true <-> exists b, opts_body s = Some b).
  { rewrite match_opts_body_spec. split.
    - intros (body & sp & rest & E & N & SP). destruct (opts_body s) as [b|] eqn:EB; [eauto|]. exfalso. revert body E N. clear EK c r. induction s as [|d s IHs]; intros body Es N; [destruct body; discriminate|]. cbn [opts_body] in EB. destruct body as [|x body].
      + injection Es as -> Es. assert (M : match_semicolon s = true) by (apply match_semicolon_spec; exists sp, rest; auto). rewrite M in EB. change (eqb 93%N (ch "]")) with true in EB. change (eqb 93%N 10%N) with false in EB. cbn [andb] in EB. destruct (opts_body s); discriminate.
      + injection Es as Ed Es. subst d. destruct (eqb_spec x 10%N) as [EX|NX]; [apply N; left; exact EX|]. destruct (opts_body s) as [b'|] eqn:Eb; [discriminate|]. apply (IHs eq_refl body Es). intros I. apply N. right. exact I.
    - intros [b E]. apply opts_body_spec in E. destruct E as [(body & sp & rest & -> & Es & N & SP) _]. exists body, sp, rest. rewrite <- app_assoc in Es. auto. }
  rewrite orb_true_iff, andb_true_iff, B. destruct (eqb c (ch "[")).
  - destruct (opts_body s) as [b|]; [split; eauto|]. destruct (match_semicolon r); [split; eauto|]. split; [intros [[_ [b X]]|X]; discriminate|intros [o X]; discriminate].
  - destruct (match_semicolon r); [split; eauto|]. split; [intros [[X _]|X]; discriminate|intros [o X]; discriminate].
Qed.
Lemma carries_unique r o o' : carries r o -> carries r o' -> o = o'.
Proof.
  intros [T M] [T' M']. specialize (M _ T'). specialize (M' _ T). assert (L : List.length o = List.length o') by lia. clear M M'.
  assert (O := T). assert (O' := T'). destruct O as (_ & _ & _ & _ & O & _), O' as (_ & _ & _ & _ & O' & _). destruct O as [->|(b & -> & _)]; [destruct o'; [reflexivity|discriminate]|]. destruct O' as [->|(b' & -> & _)]; [discriminate|].
  apply tail_some in T, T'. destruct T as (s & sp & rest & E & Es & _ & _), T' as (s' & sp' & rest' & E' & Es' & _ & _). rewrite E in E'. injection E' as <-. rewrite Es in Es'. f_equal.
  assert (LB : List.length b = List.length b') by (rewrite !app_length in L; cbn in L; lia). clear -LB Es'. revert b' LB Es'. induction b as [|x b IH]; intros [|y b'] LB Es'; try discriminate; [reflexivity|]. injection Es' as -> Es'. cbn [app]. f_equal. apply IH; [injection LB as LB; exact LB|exact Es'].
Qed.
Lemma tail_spaces r b o : spaces b -> tail_is (r ++ b) o <-> tail_is r o.
Proof.
  intros SB. split.
  - intros (sp1 & sp2 & rest & E & O & S1 & S2). replace (sp1 ++ o ++ sp2 ++ lit ";" ++ rest) with ((sp1 ++ o ++ sp2 ++ lit ";") ++ rest) in E by (rewrite <- !app_assoc; reflexivity).
    apply app_eq_app in E. destruct E as (l & [[E1 E2]|[E1 E2]]).
    + exists sp1, sp2, l. split; [rewrite E1, <- !app_assoc; reflexivity|auto].
    + destruct l as [|x l]; [exists sp1, sp2, []; split; [rewrite app_nil_r in E1; rewrite <- E1; reflexivity|auto]|]. exfalso.
      destruct (exists_last (l := x :: l) ltac:(discriminate)) as (l' & y & Ey). rewrite Ey in *. rewrite !app_assoc in E1. change (lit ";") with [ch ";"] in E1. apply app_inj_tail in E1. destruct E1 as [_ <-].
      unfold spaces in SB. rewrite E2, Forall_forall in SB. specialize (SB (ch ";")). discriminate SB. apply in_or_app. left. apply in_or_app. right. left. reflexivity.
  - intros (sp1 & sp2 & rest & -> & O & S1 & S2). exists sp1, sp2, (rest ++ b). split; [rewrite <- !app_assoc; reflexivity|auto].
Qed.
Lemma carries_spaces r b o : spaces b -> carries (r ++ b) o <-> carries r o.
Proof. intros SB. unfold carries. rewrite (tail_spaces r b o SB). split; intros [T M]; (split; [exact T|]); intros o' T'; apply M, (tail_spaces r b o' SB), T'. Qed.

(** the meaning computed by the code *)
Definition oitem_of (l : str) : oitem :=
  match match_vertex_opts (strip l) with
  | Some (u, o) => OVertex u (txt o)
  | None => match match_edge_opts (strip l) with Some (u, v, o) => OEdge u v (txt o) | None => ONone end
  end.
Lemma vertex_opts_only s : match_line_vertex s = option_map fst (match_vertex_opts s).
Proof.
  unfold match_line_vertex, match_vertex_opts. destruct (span digit09 s) as [[|c u] r]; [reflexivity|]. destruct (match_opts r) eqn:M.
  - apply opts_group_some in M. destruct M as [o ->]. reflexivity.
  - destruct (opts_group r) as [o|] eqn:G; [|reflexivity]. assert (X : match_opts r = true) by (apply opts_group_some; eauto). congruence.
Qed.
Lemma edge_opts_only s : match_line_edge s = option_map fst (match_edge_opts s).
Proof.
  unfold match_line_edge, match_edge_opts. destruct (span digit09 s) as [[|c u] r]; [reflexivity|]. destruct (skip_spaces r) as [|a [|b r']]; try reflexivity. destruct (_ && _); [|reflexivity].
  destruct (span digit09 (skip_spaces r')) as [[|d v] r'']; [reflexivity|]. destruct (match_opts r'') eqn:M.
  - apply opts_group_some in M. destruct M as [o ->]. reflexivity.
  - destruct (opts_group r'') as [o|] eqn:G; [|reflexivity]. assert (X : match_opts r'' = true) by (apply opts_group_some; eauto). congruence.
Qed.
Lemma item_only_of l : item_only (oitem_of l) = item_of l.
Proof.
  unfold oitem_of, item_of. rewrite vertex_opts_only, edge_opts_only. destruct (match_vertex_opts (strip l)) as [[u o]|]; [reflexivity|]. cbn [option_map]. destruct (match_edge_opts (strip l)) as [[[u v] o]|]; reflexivity.
Qed.
Lemma omeans_oitem l : omeans l (oitem_of l).
Proof.
  unfold oitem_of. destruct (strip_spec l) as (a & b & EL & SA & SB). destruct (match_vertex_opts (strip l)) as [[u o]|] eqn:EV.
  - unfold match_vertex_opts in EV. destruct (span_cut digit09 (strip l)) as (u' & r & E & Es & F & _). rewrite E in EV. destruct u' as [|c u']; [discriminate|]. destruct (opts_group r) as [o'|] eqn:G; [|discriminate]. injection EV as <- ->.
    exists a, (r ++ b). split; [rewrite EL, Es, <- app_assoc; reflexivity|]. split; [exact SA|]. split; [split; [discriminate|apply digits_forall, F]|]. apply carries_spaces; [exact SB|apply opts_group_spec, G].
  - destruct (match_edge_opts (strip l)) as [[[u v] o]|] eqn:EE.
    + unfold match_edge_opts in EE. destruct (span_cut digit09 (strip l)) as (u' & r & E & Es & F & _). rewrite E in EE. destruct u' as [|c u']; [discriminate|]. destruct (skip_cut r) as (sp1 & E1 & SP1 & _). destruct (skip_spaces r) as [|x [|y r']]; try discriminate.
      destruct (eqb x (ch "-") && eqb y (ch ">")) eqn:EX; [|discriminate]. apply andb_true_iff in EX. destruct EX as [EX EY]. apply (proj1 (eqb_eq _ _)) in EX. apply (proj1 (eqb_eq _ _)) in EY. subst x y.
      destruct (skip_cut r') as (sp2 & E2 & SP2 & _). destruct (span_cut digit09 (skip_spaces r')) as (v' & r'' & E3 & E4 & F2 & _). rewrite E3 in EE. destruct v' as [|d v']; [discriminate|]. destruct (opts_group r'') as [o'|] eqn:G; [|discriminate]. injection EE as <- <- ->.
      exists a, sp1, sp2, (r'' ++ b). split; [rewrite EL, Es, E1, E2, E4; change (lit "->") with [ch "-"; ch ">"]; repeat (progress (cbn [app]; rewrite <- ?app_assoc)); reflexivity|]. split; [exact SA|]. split; [split; [discriminate|apply digits_forall, F]|]. split; [exact SP1|]. split; [exact SP2|]. split; [split; [discriminate|apply digits_forall, F2]|].
      apply carries_spaces; [exact SB|apply opts_group_spec, G].
    + cbn [omeans]. apply item_of_spec. unfold item_of. rewrite vertex_opts_only, edge_opts_only, EV, EE. reflexivity.
Qed.
Lemma omeans_means l it : omeans l it -> means l (item_only it).
Proof.
  destruct it as [u o|u v o|]; cbn [omeans item_only means].
  - intros (sp & r & -> & SP & N & [(sp1 & sp2 & rest & -> & O & S1 & S2) _]). exists sp, sp1, o, sp2, rest. auto 10.
  - intros (sp & sp1 & sp2 & r & -> & SP & NU & S1 & S2 & NV & [(sp3 & sp4 & rest & -> & O & S3 & S4) _]). exists sp, sp1, sp2, sp3, o, sp4, rest. auto 15.
  - auto.
Qed.
Lemma omeans_unique l it it' : omeans l it -> omeans l it' -> it = it'.
Proof.
  intros M M'. assert (E : item_only it = item_only it') by (apply omeans_means, item_of_spec in M; apply omeans_means, item_of_spec in M'; congruence).
  destruct it as [u o|u v o|], it' as [u' o'|u' v' o'|]; try discriminate E; [| |reflexivity].
  - injection E as <-. destruct M as (sp & r & -> & SP & N & C), M' as (sp' & r' & E & SP' & N' & C'). apply skip_unique in E; [|assumption|assumption|apply number_head; assumption|apply number_head; assumption]. apply app_inv_head in E. subst r'. f_equal. apply (carries_unique r); assumption.
  - injection E as <- <-. destruct M as (sp & sp1 & sp2 & r & -> & SP & NU & S1 & S2 & NV & C), M' as (sp' & sp1' & sp2' & r' & E & SP' & NU' & S1' & S2' & NV' & C').
    apply skip_unique in E; [|assumption|assumption|apply number_head; assumption|apply number_head; assumption]. apply app_inv_head in E. apply skip_unique in E; [|assumption|assumption|reflexivity|reflexivity]. apply app_inv_head in E.
    apply skip_unique in E; [|assumption|assumption|apply number_head; assumption|apply number_head; assumption]. apply app_inv_head in E. subst r'. f_equal. apply (carries_unique r); assumption.
Qed.

Lemma forall2_oitems ls its : Forall2 omeans ls its -> map oitem_of ls = its.
Proof. induction 1 as [|l it ls its M _ IH]; [reflexivity|]. cbn [map]. f_equal; [|exact IH]. apply (omeans_unique l); [apply omeans_oitem|exact M]. Qed.

(** ** The attributes *)
Lemma handle_all tags : forall d, fold_left handle_starttag tags d = handle_starttag d (concat tags).
Proof. induction tags as [|a tags IH]; intros d; [reflexivity|]. cbn [fold_left concat]. rewrite IH. unfold handle_starttag. rewrite fold_left_app. reflexivity. Qed.
Lemma handle_dget given : forall d k, dget (handle_starttag d given) k = match last_value k given with Some v => Some v | None => dget d k end.
Proof.
  induction given as [|[k' v] given IH]; intros d k; [reflexivity|]. change (handle_starttag d ((k', v) :: given)) with (handle_starttag (dset d k' v) given). rewrite IH. cbn [last_value]. destruct (last_value k given); [reflexivity|].
  rewrite dget_dset. unfold eqb. destruct (eq_dec k k'); reflexivity.
Qed.
Lemma handle_nodup given : forall d, NoDup (dkeys d) -> NoDup (dkeys (handle_starttag d given)).
Proof. induction given as [|[k v] given IH]; intros d N; [exact N|]. apply (IH (dset d k v)), NoDup_dset, N. Qed.
Lemma nodup_app_in (l l' : list str) : nodup eq_dec (l ++ l') = filter (fun x => if in_dec eq_dec x l' then false else true) (nodup eq_dec l) ++ nodup eq_dec l'.
Proof.
  induction l as [|x l IH]; [reflexivity|]. cbn [app nodup]. destruct (in_dec eq_dec x (l ++ l')) as [I|N].
  - rewrite IH. destruct (in_dec eq_dec x l) as [I1|N1]; [reflexivity|]. cbn [filter]. destruct (in_dec eq_dec x l') as [I2|N2]; [reflexivity|]. apply in_app_or in I. tauto.
  - rewrite IH. destruct (in_dec eq_dec x l) as [I1|N1]; [destruct N; apply in_or_app; auto|]. cbn [filter]. destruct (in_dec eq_dec x l') as [I2|N2]; [destruct N; apply in_or_app; auto|reflexivity].
Qed.
Lemma handle_keys given : forall d, NoDup (dkeys d) -> dkeys (handle_starttag d given) = rev (nodup eq_dec (rev (dkeys d ++ map fst given))).
Proof.
  induction given as [|[k v] given IH]; intros d N.
  - cbn [map]. rewrite app_nil_r, nodup_fixed_point by (apply NoDup_rev; exact N). rewrite rev_involutive. reflexivity.
  - change (handle_starttag d ((k, v) :: given)) with (handle_starttag (dset d k v) given). rewrite IH by apply NoDup_dset, N. cbn [map fst].
    destruct (in_dec eq_dec k (dkeys d)) as [M|M].
    + rewrite dkeys_dset_old by exact M. rewrite !rev_app_distr. cbn [rev]. rewrite <- app_assoc. rewrite !(nodup_app_in (rev (map fst given))). f_equal. cbn [app]. cbn [nodup]. destruct (in_dec eq_dec k (rev (dkeys d))) as [I|NI]; [|destruct NI; apply in_rev in M; exact M].
      f_equal. apply filter_ext. intros x. destruct (in_dec eq_dec x (rev (dkeys d))), (in_dec eq_dec x (k :: rev (dkeys d))) as [J|J]; try reflexivity; [destruct J; right; assumption|destruct J as [<-|J]; contradiction].
    + rewrite dkeys_dset_new by exact M. rewrite <- app_assoc. reflexivity.
Qed.

(** ** The whole text *)
Section Whole.
  Variable add_edge : graph -> nat -> nat -> graph * res (gedge * bool).
  Variable starttags : str -> list (list (str * option str)).
  Variable H : Type.
  Variable vh : H -> nat -> str -> option str -> H.
  Variable eh : H -> gedge -> str -> option str -> H.
  Let V := fun h u k v => (vh h u k v, Ok tt).
  Let W := fun h e k v => (eh h e k v, Ok tt).
  Let attrs := fun o => parser_items starttags (Some o).
  Let does := fun h c => match c with VCall u k v => vh h u k v | ECall e k v => eh h e k v end.
  Notation read := (vis_read_line add_edge starttags H V W).

  Lemma parser_txt o : parser_items starttags o = attrs (txt o).
  Proof using. destruct o; reflexivity. Qed.
  Lemma foreach_pure {A B} (f : A -> B -> A) l : forall a, foreach (fun a b => (f a b, Ok tt)) a l = (fold_left f l a, Ok tt).
  Proof using. induction l as [|b l IH]; intros a; [reflexivity|]. cbn [foreach fold_left]. apply IH. Qed.
  Lemma foreach_vertex h u l : foreach (fun h kv => V h u (fst kv) (snd kv)) h l = (fold_left does (map (fun kv => VCall u (fst kv) (snd kv)) l) h, Ok tt).
  Proof using. unfold V. rewrite (foreach_pure (fun h kv => vh h u (fst kv) (snd kv))). f_equal. revert h. induction l as [|x l IH]; intros h; [reflexivity|]. cbn [fold_left map]. apply IH. Qed.
  Lemma foreach_edge h e l : foreach (fun h kv => W h e (fst kv) (snd kv)) h l = (fold_left does (map (fun kv => ECall e (fst kv) (snd kv)) l) h, Ok tt).
  Proof using. unfold W. rewrite (foreach_pure (fun h kv => eh h e (fst kv) (snd kv))). f_equal. revert h. induction l as [|x l IH]; intros h; [reflexivity|]. cbn [fold_left map]. apply IH. Qed.
  Lemma read_oitem s l : read s l = match oitem_of l with OVertex u o => vis_on_vertex starttags H V s u (Some o) | OEdge u v o => vis_on_edge add_edge starttags H W s u v (Some o) | ONone => (s, Ok tt) end.
  Proof using.
    unfold vis_read_line, oitem_of. destruct (match_vertex_opts (strip l)) as [[u o]|].
    - unfold vis_on_vertex. rewrite (parser_txt o). reflexivity.
    - destruct (match_edge_opts (strip l)) as [[[u v] o]|]; [|reflexivity]. unfold vis_on_edge. rewrite (parser_txt o). reflexivity.
  Qed.

  (** without a visitor *)
  Lemma vis_plain ls : forall g al h, exists h', foreach read (g, al, h) ls = (let '((g', al'), r) := foreach (read_line add_edge) (g, al) ls in ((g', al', h'), r)).
  Proof using.
    induction ls as [|l ls IH]; intros g al h; [exists h; reflexivity|]. cbn [foreach]. rewrite read_oitem, read_line_item, <- item_only_of. destruct (oitem_of l) as [u o|u v o|]; cbn [item_only].
    - unfold vis_on_vertex, on_vertex. cbn [fst snd]. destruct (G_add_vertex g) as [g1 [x|ex]]; [|exists h; reflexivity]. rewrite foreach_vertex. apply IH.
    - unfold vis_on_edge, on_edge. cbn [fst snd]. destruct (dget al u) as [i|]; [|exists h; reflexivity]. destruct (dget al v) as [j|]; [|exists h; reflexivity]. destruct (add_edge g i j) as [g1 [[e b]|ex]]; [|exists h; reflexivity]. destruct b; [|exists h; reflexivity]. rewrite foreach_edge. apply IH.
    - apply IH.
  Qed.

  Variable shape : nat * nat -> nat * nat.
  (** [rep g k E]: the graph has the vertices 0, ..., k - 1 and the edges E *)
  Variable rep : graph -> nat -> list gedge -> Prop.
  Hypothesis rep_vertex : forall g k E, rep g k E -> exists g', G_add_vertex g = (g', Ok k) /\ rep g' (S k) E.
  Hypothesis rep_edge : forall g k E u v, rep g k E -> u < k -> v < k -> exists g' e, add_edge g u v = (g', Ok (e, true)) /\ ends e = shape (u, v) /\ rep g' k (E ++ [e]).

  Lemma vis_lines ls : forall its A E g al h, builds (map item_only its) A -> rep g (num_vertex_lines (map item_only its)) E -> map ends E = map shape A -> (forall u i, dget al u = Some i <-> denotes (map item_only its) u i) ->
    (exists A' E' g' al', builds (map item_only (its ++ map oitem_of ls)) A' /\ foreach read (g, al, h) ls = ((g', al', fold_left does (calls attrs (num_vertex_lines (map item_only its)) (map oitem_of ls) E') h), Ok tt) /\
      rep g' (num_vertex_lines (map item_only (its ++ map oitem_of ls))) (E ++ E') /\ map ends (E ++ E') = map shape A') \/
    (exists before u v o after A' E' g' al', map oitem_of ls = before ++ OEdge u v o :: after /\ builds (map item_only (its ++ before)) A' /\
      ((forall i, ~ denotes (map item_only (its ++ before)) u i) \/ forall j, ~ denotes (map item_only (its ++ before)) v j) /\
      foreach read (g, al, h) ls = ((g', al', fold_left does (calls attrs (num_vertex_lines (map item_only its)) before E') h), Raise KeyError) /\
      rep g' (num_vertex_lines (map item_only (its ++ before))) (E ++ E') /\ map ends (E ++ E') = map shape A').
  Proof using rep_vertex rep_edge.
    induction ls as [|l ls IH]; intros its A E g al h B R M AL; cbn [map foreach].
    - left. exists A, [], g, al. rewrite !app_nil_r. split; [exact B|]. split; [reflexivity|]. auto.
    - rewrite read_oitem. destruct (oitem_of l) as [u o|u v o|].
      + unfold vis_on_vertex. destruct (rep_vertex _ _ _ R) as (g1 & -> & R1). rewrite foreach_vertex.
        specialize (IH (its ++ [OVertex u o]) A E g1 (dset al u (num_vertex_lines (map item_only its))) (fold_left does (map (fun kv => VCall (num_vertex_lines (map item_only its)) (fst kv) (snd kv)) (attrs o)) h)).
        rewrite (map_app item_only its [_]) in IH. cbn [map item_only] in IH. rewrite num_snoc in IH. cbn [is_vertex] in IH. rewrite Nat.add_1_r in IH.
        destruct IH as [(A' & E' & g' & al' & B' & F' & R' & M')|(before & x & y & o' & after & A' & E' & g' & al' & EI & B' & N' & F' & R' & M')].
        * constructor. exact B.
        * exact R1.
        * exact M.
        * intros x i. rewrite dget_dset, denotes_vertex. destruct (eqb x u); [|apply AL]. split; [intros [= <-]; reflexivity|intros ->; reflexivity].
        * left. exists A', E', g', al'. rewrite <- app_assoc in B', R'. split; [exact B'|]. split; [|split; [exact R'|exact M']]. cbn [calls]. rewrite fold_left_app. exact F'.
        * right. exists (OVertex u o :: before), x, y, o', after, A', E', g', al'. rewrite <- app_assoc in B', N', R'. split; [rewrite EI; reflexivity|]. split; [exact B'|]. split; [exact N'|]. split; [|split; [exact R'|exact M']]. cbn [calls]. rewrite fold_left_app. exact F'.
      + unfold vis_on_edge. destruct (dget al u) as [i|] eqn:Eu; [destruct (dget al v) as [j|] eqn:Ev|].
        * apply AL in Eu, Ev. destruct (rep_edge _ _ _ i j R (denotes_lt _ _ _ Eu) (denotes_lt _ _ _ Ev)) as (g1 & e & -> & EE & R1). rewrite foreach_edge.
          specialize (IH (its ++ [OEdge u v o]) (A ++ [(i, j)]) (E ++ [e]) g1 al (fold_left does (map (fun kv => ECall e (fst kv) (snd kv)) (attrs o)) h)).
          rewrite (map_app item_only its [_]) in IH. cbn [map item_only] in IH. rewrite num_snoc in IH. cbn [is_vertex] in IH. rewrite Nat.add_0_r in IH.
          destruct IH as [(A' & E' & g' & al' & B' & F' & R' & M')|(before & x & y & o' & after & A' & E' & g' & al' & EI & B' & N' & F' & R' & M')].
          -- constructor; assumption.
          -- exact R1.
          -- rewrite !map_app, M. cbn [map]. rewrite EE. reflexivity.
          -- intros x k. rewrite denotes_other by reflexivity. apply AL.
          -- left. exists A', (e :: E'), g', al'. rewrite <- app_assoc in B', R', M'. cbn [app] in R', M', B'. rewrite <- app_assoc in R'. split; [exact B'|]. split; [|split; [exact R'|exact M']]. cbn [calls]. rewrite fold_left_app. exact F'.
          -- right. exists (OEdge u v o :: before), x, y, o', after, A', (e :: E'), g', al'. rewrite <- app_assoc in B', N', R', M'. rewrite <- app_assoc in R'. cbn [app] in *. split; [rewrite EI; reflexivity|]. split; [exact B'|]. split; [exact N'|]. split; [|split; [exact R'|exact M']]. cbn [calls]. rewrite fold_left_app. exact F'.
        * right. exists [], u, v, o, (map oitem_of ls), A, [], g, al. rewrite !app_nil_r. split; [reflexivity|]. split; [exact B|]. split; [|auto]. right. intros j X. apply AL in X. congruence.
        * right. exists [], u, v, o, (map oitem_of ls), A, [], g, al. rewrite !app_nil_r. split; [reflexivity|]. split; [exact B|]. split; [|auto]. left. intros j X. apply AL in X. congruence.
      + specialize (IH (its ++ [ONone]) A E g al h). rewrite (map_app item_only its [_]) in IH. cbn [map item_only] in IH. rewrite num_snoc in IH. cbn [is_vertex] in IH. rewrite Nat.add_0_r in IH.
        destruct IH as [(A' & E' & g' & al' & B' & F' & R' & M')|(before & x & y & o' & after & A' & E' & g' & al' & EI & B' & N' & F' & R' & M')].
        * constructor. exact B.
        * exact R.
        * exact M.
        * intros x i. rewrite denotes_other by reflexivity. apply AL.
        * left. exists A', E', g', al'. rewrite <- app_assoc in B', R'. split; [exact B'|]. split; [exact F'|]. split; [exact R'|exact M'].
        * right. exists (ONone :: before), x, y, o', after, A', E', g', al'. rewrite <- app_assoc in B', N', R'. split; [rewrite EI; reflexivity|]. split; [exact B'|]. split; [exact N'|]. split; [exact F'|]. split; [exact R'|exact M'].
  Qed.
End Whole.
