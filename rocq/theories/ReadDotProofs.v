(** Lemmas on read_graphviz. *)
From Coq Require Import String.
From Verif Require Import Str Regexp Graph GraphSpec GraphProofs GraphProofs2 Graphviz GraphvizSpec GraphvizProofs GraphvizProofs2 ReadDotSpec.
From Verif Require Import Base BaseProofs.
Open Scope string_scope.
Open Scope nat_scope.
Open Scope list_scope.
#[local] Arguments dkeys : simpl never.

(** ** Lines *)
Lemma linebreak_spec c : linebreak c = true <-> boundary c.
Proof. unfold linebreak, boundary. apply mem_spec. Qed.
Lemma split_line l : forall acc s, one_line l -> splitlines_from acc (l ++ s) = splitlines_from (rev l ++ acc) s.
Proof.
  induction l as [|c l IH]; intros acc s O; [reflexivity|]. cbn [app splitlines_from].
  assert (linebreak c = false) as -> by (destruct (linebreak c) eqn:E; [|reflexivity]; apply linebreak_spec in E; destruct (O c (or_introl eq_refl) E)).
  rewrite IH by (intros d I; apply O; right; exact I). cbn [rev]. rewrite <- app_assoc. reflexivity.
Qed.
Lemma splitlines_complete s ls : lines_of s ls -> splitlines s = ls.
Proof.
  unfold splitlines. induction 1 as [|l O NE|l s ls O H IH|l c s ls O B N H IH].
  - reflexivity.
  - rewrite <- (app_nil_r l) at 1. rewrite split_line by exact O. rewrite app_nil_r. cbn [splitlines_from]. destruct (rev l) as [|c r] eqn:E; [apply (f_equal (@rev _)) in E; rewrite rev_involutive in E; contradiction|].
    rewrite <- E, rev_involutive. reflexivity.
  - rewrite split_line by exact O. rewrite app_nil_r. cbn [app splitlines_from]. change (linebreak 13%N) with true. cbv iota. rewrite rev_involutive. change (eqb 13%N 13%N && eqb 10%N 10%N) with true. cbv iota. f_equal. exact IH.
  - rewrite split_line by exact O. rewrite app_nil_r. cbn [app splitlines_from]. rewrite (proj2 (linebreak_spec c) B), rev_involutive. f_equal. destruct s as [|d s]; [rewrite <- IH; reflexivity|]. rewrite <- IH.
    match goal with |- (if ?b then _ else _) = _ => destruct b eqn:E; [|reflexivity] end. exfalso. apply N. apply andb_true_iff in E. destruct E as [E1 E2]. apply (proj1 (eqb_eq _ _)) in E1. apply (proj1 (eqb_eq _ _)) in E2. subst. split; [reflexivity|]. eexists. reflexivity.
Qed.
Lemma lines_total n : forall s, List.length s <= n -> exists ls, lines_of s ls.
Proof.
  induction n as [|n IH]; intros s L.
  - destruct s; [exists []; constructor|cbn in L; lia].
  - destruct (span_cut (fun c => negb (linebreak c)) s) as (l & r & _ & -> & F & HR).
    assert (O : one_line l). { intros c I J. rewrite Forall_forall in F. specialize (F c I). rewrite (proj2 (linebreak_spec c) J) in F. discriminate. }
    destruct r as [|c r].
    + rewrite app_nil_r. destruct l as [|c l]; [exists []; constructor|]. exists [c :: l]. constructor; [exact O|discriminate].
    + assert (B : boundary c) by (apply linebreak_spec; destruct (linebreak c); [reflexivity|discriminate]). rewrite app_length in L. cbn [List.length] in L.
      destruct (N.eq_dec c 13) as [->|NC].
      * destruct r as [|d r]; [exists [l]; apply (lines_end l 13%N []); [exact O|exact B|intros [_ [s' E]]; discriminate|constructor]|].
        destruct (N.eq_dec d 10) as [->|ND].
        -- destruct (IH r) as [ls H]; [cbn [List.length] in L; lia|]. exists (l :: ls). apply (lines_crlf l r ls O H).
        -- destruct (IH (d :: r)) as [ls H]; [lia|]. exists (l :: ls). apply (lines_end l 13%N (d :: r)); [exact O|exact B|intros [_ [s' [= -> ->]]]; congruence|exact H].
      * destruct (IH r) as [ls H]; [lia|]. exists (l :: ls). apply (lines_end l c r); [exact O|exact B|intros [E _]; congruence|exact H].
Qed.
Lemma splitlines_spec s ls : splitlines s = ls <-> lines_of s ls.
Proof.
  split; [|apply splitlines_complete]. intros E. destruct (lines_total _ s (le_n _)) as [ls' H]. rewrite (splitlines_complete _ _ H) in E. subst. exact H.
Qed.

(** ** One line *)
Lemma digit_in c : digit09 c = true <-> In c (lit "0123456789").
Proof. split; [apply digit09_in|]. intros I. cbn in I. repeat (destruct I as [<-|I]; [reflexivity|]). destruct I. Qed.
Lemma digits_forall u : Forall (fun c => In c (lit "0123456789")) u <-> Forall (fun c => digit09 c = true) u.
Proof. rewrite !Forall_forall. split; intros H c I; apply digit_in, H, I. Qed.
Lemma strip_spec s : exists a b, s = a ++ strip s ++ b /\ spaces a /\ spaces b.
Proof.
  destruct (skip_cut s) as (a & E & SA & _). destruct (skip_cut (rev (skip_spaces s))) as (b & E2 & SB & _). exists a, (rev b). split; [|split; [exact SA|apply Forall_rev, SB]].
  unfold strip. rewrite E at 1. f_equal. rewrite <- rev_app_distr, <- E2. symmetry. apply rev_involutive.
Qed.
Lemma space_not_digit c : isspace c = true -> digit09 c = false.
Proof. intros S. destruct (digit09 c) eqn:D; [|reflexivity]. destruct (digit_facts c D) as [E _]. congruence. Qed.
(** a prefix that ends with a visible character survives strip() *)
Lemma strip_keep a X c r : spaces a -> match X ++ [c] with [] => True | x :: _ => isspace x = false end -> isspace c = false ->
  exists r', strip (a ++ X ++ [c] ++ r) = X ++ [c] ++ r'.
Proof.
  intros SA FX SC. unfold strip. rewrite skip_here; [|exact SA|destruct X; exact FX]. destruct (skip_cut (rev (X ++ [c] ++ r))) as (b & E & SB & _). set (t := skip_spaces _) in *.
  apply (f_equal (@rev _)) in E. rewrite rev_involutive, rev_app_distr in E. rewrite app_assoc in E. apply app_eq_app in E. destruct E as (l & [[E1 E2]|[E1 E2]]).
  - destruct l as [|x l]; [exists []; rewrite app_nil_r in E1; rewrite app_nil_r; auto|]. exfalso. assert (I : In c (x :: l)).
    { destruct (exists_last (l := x :: l) ltac:(discriminate)) as (l' & y & Ey). rewrite Ey in *. rewrite app_assoc in E1. apply app_inj_tail in E1. destruct E1 as [_ ->]. apply in_or_app. right. left. reflexivity. }
    assert (J : In c (rev b)) by (rewrite E2; apply in_or_app; left; exact I). apply in_rev in J. unfold spaces in SB. rewrite Forall_forall in SB. rewrite (SB c J) in SC. discriminate.
  - exists l. rewrite E1, <- app_assoc. reflexivity.
Qed.

Lemma match_semicolon_spec s : match_semicolon s = true <-> exists sp rest, s = sp ++ lit ";" ++ rest /\ spaces sp.
Proof.
  unfold match_semicolon. split.
  - destruct (skip_cut s) as (sp & E & SP & _). destruct (skip_spaces s) as [|c r]; [discriminate|]. intros H. apply (proj1 (eqb_eq _ _)) in H. subst c. exists sp, r. split; [exact E|exact SP].
  - intros (sp & rest & -> & SP). rewrite skip_here; [apply eqb_refl|exact SP|reflexivity].
Qed.
Lemma match_opts_body_spec s : match_opts_body s = true <-> exists body sp rest, s = body ++ lit "]" ++ sp ++ lit ";" ++ rest /\ ~ In 10%N body /\ spaces sp.
Proof.
  induction s as [|c s IH]; cbn [match_opts_body].
  - split; [discriminate|]. intros (body & sp & rest & E & _). destruct body; discriminate.
  - rewrite orb_true_iff, !andb_true_iff, IH, match_semicolon_spec. split.
    + intros [[E (sp & rest & -> & SP)]|[E (body & sp & rest & -> & N & SP)]].
      * apply (proj1 (eqb_eq _ _)) in E. subst c. exists [], sp, rest. split; [reflexivity|]. split; [intros []|exact SP].
      * exists (c :: body), sp, rest. split; [reflexivity|]. split; [|exact SP]. intros [->|I]; [discriminate|contradiction].
    + intros (body & sp & rest & E & N & SP). destruct body as [|b body].
      * injection E as -> E. left. split; [apply eqb_refl|]. exists sp, rest. auto.
      * injection E as -> E. right. split; [|exists body, sp, rest; split; [exact E|split; [intros I; apply N; right; exact I|exact SP]]].
        apply negb_true_iff. destruct (eqb_spec b 10%N) as [->|]; [destruct N; left; reflexivity|reflexivity].
Qed.
Lemma match_opts_spec s : match_opts s = true <-> exists sp1 o sp2 rest, s = sp1 ++ o ++ sp2 ++ lit ";" ++ rest /\ options o /\ spaces sp1 /\ spaces sp2.
Proof.
  unfold match_opts. split.
  - destruct (skip_cut s) as (sp & E & SP & _). destruct (skip_spaces s) as [|c r] eqn:EK; [discriminate|]. rewrite orb_true_iff, andb_true_iff, match_semicolon_spec, match_opts_body_spec.
    intros [[EC (body & sp2 & rest & -> & N & SP2)]|(sp2 & rest & -> & SP2)].
    + apply (proj1 (eqb_eq _ _)) in EC. subst c. exists sp, (lit "[" ++ body ++ lit "]"), sp2, rest. split; [rewrite E, <- !app_assoc; reflexivity|]. split; [right; exists body; auto|auto].
    + exists sp2, [], [], rest. split; [reflexivity|]. split; [left; reflexivity|]. split; [exact SP2|constructor].
  - intros (sp1 & o & sp2 & rest & -> & [->|(body & -> & N)] & SP1 & SP2).
    + assert (M : match_semicolon (sp1 ++ [] ++ sp2 ++ lit ";" ++ rest) = true).
      { apply match_semicolon_spec. exists (sp1 ++ sp2), rest. split; [rewrite <- app_assoc; reflexivity|]. apply Forall_app. auto. }
      rewrite M. destruct (skip_spaces _) as [|c r] eqn:E; [|apply orb_true_r]. unfold match_semicolon in M. rewrite E in M. discriminate.
    + rewrite <- !app_assoc. rewrite skip_here; [|exact SP1|reflexivity]. change (lit "[" ++ body ++ lit "]" ++ sp2 ++ lit ";" ++ rest) with (ch "[" :: body ++ lit "]" ++ sp2 ++ lit ";" ++ rest). cbv iota beta.
      apply orb_true_iff. left. apply andb_true_iff. split; [reflexivity|]. apply match_opts_body_spec. exists body, sp2, rest. auto.
Qed.
Lemma opts_head s : match_opts s = true -> match s with [] => True | c :: _ => digit09 c = false end.
Proof.
  intros M. apply match_opts_spec in M. destruct M as (sp1 & o & sp2 & rest & -> & O & SP1 & SP2).
  destruct sp1 as [|c sp1]; [|apply space_not_digit; inversion SP1; assumption]. destruct O as [->|(body & -> & _)]; [|reflexivity].
  destruct sp2 as [|c sp2]; [reflexivity|]. apply space_not_digit; inversion SP2; assumption.
Qed.
(** what follows the leading spaces *)
Definition vertex_core (s u : str) : Prop := exists r, s = u ++ r /\ number u /\ match_opts r = true.
Definition edge_core (s u v : str) : Prop := exists sp1 sp2 r, s = u ++ sp1 ++ lit "->" ++ sp2 ++ v ++ r /\ number u /\ number v /\ spaces sp1 /\ spaces sp2 /\ match_opts r = true.
Lemma match_vertex_spec s u : match_line_vertex s = Some u <-> vertex_core s u.
Proof.
  unfold match_line_vertex. split.
  - destruct (span_cut digit09 s) as (a & r & E & -> & F & _). rewrite E. destruct a as [|c a]; [discriminate|]. destruct (match_opts r) eqn:M; [|discriminate]. intros [= <-].
    exists r. split; [reflexivity|]. split; [|exact M]. split; [discriminate|apply digits_forall, F].
  - intros (r & -> & [NE D] & M). rewrite (span_here digit09 u r); [|apply digits_forall, D|apply opts_head, M]. destruct u; [contradiction|]. rewrite M. reflexivity.
Qed.
Lemma match_edge_spec s u v : match_line_edge s = Some (u, v) <-> edge_core s u v.
Proof.
  unfold match_line_edge. split.
  - destruct (span_cut digit09 s) as (a & r & E & -> & F & _). rewrite E. destruct a as [|c a]; [discriminate|]. destruct (skip_cut r) as (sp1 & E1 & SP1 & _). destruct (skip_spaces r) as [|x [|y r']]; try discriminate.
    destruct (eqb x (ch "-") && eqb y (ch ">")) eqn:EX; [|discriminate]. apply andb_true_iff in EX. destruct EX as [EX EY]. apply (proj1 (eqb_eq _ _)) in EX. apply (proj1 (eqb_eq _ _)) in EY. subst x y.
    destruct (skip_cut r') as (sp2 & E2 & SP2 & _). destruct (span_cut digit09 (skip_spaces r')) as (b & r'' & E3 & E4 & F2 & _). rewrite E3. destruct b as [|d b]; [discriminate|]. destruct (match_opts r'') eqn:M; [|discriminate]. intros [= <- <-].
    exists sp1, sp2, r''. split; [rewrite E1, E2, E4; reflexivity|]. split; [split; [discriminate|apply digits_forall, F]|]. split; [split; [discriminate|apply digits_forall, F2]|]. auto.
  - intros (sp1 & sp2 & r & -> & [NU DU] & [NV DV] & SP1 & SP2 & M). rewrite (span_here digit09 u); [|apply digits_forall, DU|destruct sp1 as [|c sp1]; [reflexivity|apply space_not_digit; inversion SP1; assumption]].
    destruct u as [|c u]; [contradiction|]. rewrite skip_here; [|exact SP1|reflexivity]. change (lit "->" ++ sp2 ++ v ++ r) with (ch "-" :: ch ">" :: sp2 ++ v ++ r). cbv iota beta. rewrite !eqb_refl. cbn [andb].
    rewrite skip_here; [|exact SP2|destruct v as [|d v]; [contradiction|]; cbn [app]; inversion DV; apply (digit_facts d), digit_in; assumption].
    rewrite (span_here digit09 v); [|apply digits_forall, DV|apply opts_head, M]. destruct v; [contradiction|]. rewrite M. reflexivity.
Qed.
Lemma number_head u r : number u -> match u ++ r with [] => True | c :: _ => isspace c = false end.
Proof. intros [NE D]. destruct u as [|c u]; [contradiction|]. cbn [app]. inversion D. apply (digit_facts c), digit_in. assumption. Qed.
Lemma vertex_line_spec l u : match_line_vertex (strip l) = Some u <-> vertex_line l u.
Proof.
  rewrite match_vertex_spec. split.
  - intros (r & E & N & M). apply match_opts_spec in M. destruct M as (sp1 & o & sp2 & rest & -> & O & SP1 & SP2). destruct (strip_spec l) as (a & b & EL & SA & SB). exists a, sp1, o, sp2, (rest ++ b). rewrite EL, E, <- !app_assoc. auto 10.
  - intros (sp0 & sp1 & o & sp2 & rest & -> & N & O & SP0 & SP1 & SP2). destruct (strip_keep sp0 (u ++ sp1 ++ o ++ sp2) (ch ";") rest SP0) as [r' E]; [rewrite <- app_assoc; apply number_head, N|reflexivity|].
    exists (sp1 ++ o ++ sp2 ++ lit ";" ++ r'). split; [|split; [exact N|apply match_opts_spec; exists sp1, o, sp2, r'; auto]]. rewrite <- !app_assoc in E. exact E.
Qed.
Lemma edge_line_spec l u v : match_line_edge (strip l) = Some (u, v) <-> edge_line l u v.
Proof.
  rewrite match_edge_spec. split.
  - intros (sp1 & sp2 & r & E & NU & NV & SP1 & SP2 & M). apply match_opts_spec in M. destruct M as (sp3 & o & sp4 & rest & -> & O & SP3 & SP4). destruct (strip_spec l) as (a & b & EL & SA & SB). exists a, sp1, sp2, sp3, o, sp4, (rest ++ b). rewrite EL, E, <- !app_assoc. auto 12.
  - intros (sp0 & sp1 & sp2 & sp3 & o & sp4 & rest & -> & NU & NV & O & SP0 & SP1 & SP2 & SP3 & SP4).
    destruct (strip_keep sp0 (u ++ sp1 ++ lit "->" ++ sp2 ++ v ++ sp3 ++ o ++ sp4) (ch ";") rest SP0) as [r' E]; [rewrite <- app_assoc; apply number_head, NU|reflexivity|].
    exists sp1, sp2, (sp3 ++ o ++ sp4 ++ lit ";" ++ r'). split; [|do 4 (split; [assumption|]); apply match_opts_spec; exists sp3, o, sp4, r'; auto]. rewrite <- !app_assoc in E. exact E.
Qed.
Lemma vertex_not_edge l u u' v' : vertex_line l u -> ~ edge_line l u' v'.
Proof.
  rewrite <- vertex_line_spec, <- edge_line_spec. unfold match_line_vertex, match_line_edge. destruct (span digit09 (strip l)) as [[|c a] r]; [discriminate|]. unfold match_opts, match_semicolon. intros M.
  destruct (skip_spaces r) as [|x [|y r']]; try discriminate. destruct (eqb_spec x (ch "-")) as [->|]; [|discriminate]. discriminate M.
Qed.
(** the meaning computed by the code *)
Definition item_of (l : str) : item :=
  match match_line_vertex (strip l) with
  | Some u => IVertex u
  | None => match match_line_edge (strip l) with Some (u, v) => IEdge u v | None => INone end
  end.
Lemma item_of_spec l it : means l it <-> item_of l = it.
Proof.
  assert (A : means l (item_of l)).
  { unfold item_of. destruct (match_line_vertex (strip l)) as [u|] eqn:E1; [apply vertex_line_spec, E1|]. destruct (match_line_edge (strip l)) as [[u v]|] eqn:E2; [apply edge_line_spec, E2|].
    split; [intros u H; apply vertex_line_spec in H; congruence|intros u v H; apply edge_line_spec in H; congruence]. }
  split; [|intros <-; exact A]. intros B. unfold item_of. destruct it as [u|u v|]; cbn in B.
  - apply vertex_line_spec in B. rewrite B. reflexivity.
  - destruct (match_line_vertex (strip l)) as [x|] eqn:E; [apply vertex_line_spec in E; destruct (vertex_not_edge _ _ _ _ E B)|]. apply edge_line_spec in B. rewrite B. reflexivity.
  - destruct B as [B1 B2]. destruct (match_line_vertex (strip l)) as [x|] eqn:E; [apply vertex_line_spec in E; destruct (B1 x E)|]. destruct (match_line_edge (strip l)) as [[u v]|] eqn:E2; [apply edge_line_spec in E2; destruct (B2 u v E2)|reflexivity].
Qed.

(** ** The whole text *)
Lemma num_snoc its it : num_vertex_lines (its ++ [it]) = num_vertex_lines its + if is_vertex it then 1 else 0.
Proof. unfold num_vertex_lines. rewrite filter_app, app_length. cbn [filter]. destruct (is_vertex it); reflexivity. Qed.
Lemma item_dec (a b : item) : {a = b} + {a <> b}.
Proof. decide equality; apply eq_dec. Qed.
Lemma denotes_vertex its u v i : denotes (its ++ [IVertex v]) u i <-> if eqb u v then i = num_vertex_lines its else denotes its u i.
Proof.
  split.
  - intros (p & q & E & N & ->). destruct (exists_last (l := IVertex u :: q) ltac:(discriminate)) as (q' & x & EQ). rewrite EQ, app_assoc in E. apply app_inj_tail in E. destruct E as [-> <-]. destruct q' as [|y q'].
    + injection EQ as -> ->. rewrite eqb_refl, app_nil_r. reflexivity.
    + injection EQ as <- ->. destruct (eqb_spec u v) as [->|NE]; [destruct N; apply in_or_app; right; left; reflexivity|]. exists p, q'. split; [reflexivity|]. split; [intros I; apply N, in_or_app; left; exact I|reflexivity].
  - destruct (eqb_spec u v) as [->|NE].
    + intros ->. exists its, []. split; [reflexivity|]. split; [intros []|reflexivity].
    + intros (p & q & -> & N & ->). exists p, (q ++ [IVertex v]). split; [rewrite <- app_assoc; reflexivity|]. split; [|reflexivity]. intros I. apply in_app_or in I. destruct I as [I|[[= ->]|[]]]; [contradiction|congruence].
Qed.
Lemma denotes_other its it u i : is_vertex it = false -> (denotes (its ++ [it]) u i <-> denotes its u i).
Proof.
  intros NV. split.
  - intros (p & q & E & N & ->). destruct (exists_last (l := IVertex u :: q) ltac:(discriminate)) as (q' & x & EQ). rewrite EQ, app_assoc in E. apply app_inj_tail in E. destruct E as [-> <-]. destruct q' as [|y q'].
    + injection EQ as <- ->. discriminate.
    + injection EQ as <- ->. exists p, q'. split; [reflexivity|]. split; [intros I; apply N, in_or_app; left; exact I|reflexivity].
  - intros (p & q & -> & N & ->). exists p, (q ++ [it]). split; [rewrite <- app_assoc; reflexivity|]. split; [|reflexivity]. intros I. apply in_app_or in I. destruct I as [I|[->|[]]]; [contradiction|discriminate].
Qed.
Lemma denotes_lt its u i : denotes its u i -> i < num_vertex_lines its.
Proof. intros (p & q & -> & _ & ->). unfold num_vertex_lines. rewrite filter_app, app_length. cbn. lia. Qed.

Section Whole.
  Variable add_edge : graph -> nat -> nat -> graph * res (gedge * bool).
  Variable shape : nat * nat -> nat * nat.
  (** [rep g k A]: the graph has the vertices 0, ..., k - 1 and the edges A *)
  Variable rep : graph -> nat -> list (nat * nat) -> Prop.
  Hypothesis rep_vertex : forall g k A, rep g k A -> exists g', G_add_vertex g = (g', Ok k) /\ rep g' (S k) A.
  Hypothesis rep_edge : forall g k A u v, rep g k A -> u < k -> v < k -> exists g' e, add_edge g u v = (g', Ok (e, true)) /\ rep g' k (A ++ [shape (u, v)]).

  Lemma read_line_item s l : read_line add_edge s l = match item_of l with IVertex u => on_vertex s u | IEdge u v => on_edge add_edge s u v | INone => (s, Ok tt) end.
  Proof using. unfold read_line, item_of. destruct (match_line_vertex (strip l)); [reflexivity|]. destruct (match_line_edge (strip l)) as [[u v]|]; reflexivity. Qed.

  Lemma read_lines ls : forall its A g al, builds its A -> rep g (num_vertex_lines its) (map shape A) -> (forall u i, dget al u = Some i <-> denotes its u i) ->
    (exists A' g' al', builds (its ++ map item_of ls) A' /\ foreach (read_line add_edge) (g, al) ls = ((g', al'), Ok tt) /\ rep g' (num_vertex_lines (its ++ map item_of ls)) (map shape A')) \/
    (exists before u v after A' g' al', its ++ map item_of ls = before ++ IEdge u v :: after /\ builds before A' /\ ((forall i, ~ denotes before u i) \/ forall j, ~ denotes before v j) /\
      foreach (read_line add_edge) (g, al) ls = ((g', al'), Raise KeyError) /\ rep g' (num_vertex_lines before) (map shape A')).
  Proof using rep_vertex rep_edge.
    induction ls as [|l ls IH]; intros its A g al B R AL; cbn [map foreach].
    - left. exists A, g, al. rewrite app_nil_r. auto.
    - rewrite read_line_item. destruct (item_of l) as [u|u v|].
      + unfold on_vertex. cbn [fst snd]. destruct (rep_vertex _ _ _ R) as (g1 & -> & R1).
        specialize (IH (its ++ [IVertex u]) A g1 (dset al u (num_vertex_lines its))). rewrite <- !app_assoc in IH. cbn [app] in IH. apply IH.
        * constructor. exact B.
        * rewrite num_snoc. cbn [is_vertex]. rewrite Nat.add_1_r. exact R1.
        * intros x i. rewrite dget_dset, denotes_vertex. destruct (eqb x u); [|apply AL]. split; [intros [= <-]; reflexivity|intros ->; reflexivity].
      + unfold on_edge. cbn [fst snd]. destruct (dget al u) as [i|] eqn:Eu; [destruct (dget al v) as [j|] eqn:Ev|].
        * apply AL in Eu, Ev. destruct (rep_edge _ _ _ i j R (denotes_lt _ _ _ Eu) (denotes_lt _ _ _ Ev)) as (g1 & e & -> & R1).
          specialize (IH (its ++ [IEdge u v]) (A ++ [(i, j)]) g1 al). rewrite <- !app_assoc in IH. cbn [app] in IH. apply IH.
          -- constructor; assumption.
          -- rewrite num_snoc, map_app. cbn [is_vertex]. rewrite Nat.add_0_r. exact R1.
          -- intros x k. rewrite denotes_other by reflexivity. apply AL.
        * right. exists its, u, v, (map item_of ls), A, g, al. split; [reflexivity|]. split; [exact B|]. split; [|auto]. right. intros j H. apply AL in H. congruence.
        * right. exists its, u, v, (map item_of ls), A, g, al. split; [reflexivity|]. split; [exact B|]. split; [|auto]. left. intros j H. apply AL in H. congruence.
      + specialize (IH (its ++ [INone]) A g al). rewrite <- !app_assoc in IH. cbn [app] in IH. apply IH.
        * constructor. exact B.
        * rewrite num_snoc. cbn [is_vertex]. rewrite Nat.add_0_r. exact R.
        * intros x i. rewrite denotes_other by reflexivity. apply AL.
  Qed.
End Whole.
