(** Lemmas on the round trip through dot strings. *)
From Coq Require Import String Ascii Decimal DecimalString DecimalNat.
From Verif Require Import Str Regexp Graph GraphSpec GraphProofs GraphProofs2 Graphviz GraphvizSpec GraphvizProofs.
From Verif Require Import Base BaseProofs.
Open Scope string_scope.
Open Scope nat_scope.
Open Scope list_scope.

(** ** Numbers *)
Lemma lit_inj a b : lit a = lit b -> a = b.
Proof.
  unfold lit. intros E. assert (X : list_ascii_of_string a = list_ascii_of_string b).
  { revert E. generalize (list_ascii_of_string a), (list_ascii_of_string b). induction l as [|x l IH]; intros [|y l']; cbn; intros E; try discriminate; [reflexivity|].
    injection E as E1 E2. rewrite (IH l' E2). f_equal. rewrite <- (ascii_N_embedding x), E1, ascii_N_embedding. reflexivity. }
  rewrite <- (string_of_list_ascii_of_string a), X, string_of_list_ascii_of_string. reflexivity.
Qed.
Lemma str_nat_inj u v : str_nat u = str_nat v -> u = v.
Proof.
  intros E. apply lit_inj in E. apply Unsigned.to_uint_inj. assert (X : NilEmpty.uint_of_string (NilEmpty.string_of_uint (Nat.to_uint u)) = NilEmpty.uint_of_string (NilEmpty.string_of_uint (Nat.to_uint v))) by congruence.
  rewrite !NilEmpty.usu in X. congruence.
Qed.
Lemma str_nat_digits u : Forall (fun c => digit09 c = true) (str_nat u).
Proof. unfold str_nat. induction (Nat.to_uint u); cbn; constructor; (assumption || reflexivity). Qed.
Lemma str_nat_nonempty u : str_nat u <> [].
Proof.
  unfold str_nat. destruct (Nat.to_uint u) eqn:E; try discriminate. intros _. pose proof (Unsigned.of_to u) as X. rewrite E in X. cbn in X. subst u. discriminate E.
Qed.
Lemma digit_facts c : digit09 c = true -> isspace c = false /\ (forall d, In d [10; 11; 12; 13; 28; 29; 30; 133; 8232; 8233]%N -> c <> d).
Proof.
  unfold digit09. rewrite andb_true_iff, !N.leb_le. intros D. split.
  - unfold isspace. apply orb_false_iff. split; [apply mem_false; cbn; lia|]. apply andb_false_iff. rewrite !N.leb_gt. lia.
  - intros d I. cbn in I. lia.
Qed.

(** ** Lines *)
Lemma one_line_app a b : one_line (a ++ b) <-> one_line a /\ one_line b.
Proof.
  unfold one_line. split.
  - intros H. split; intros c I; apply H, in_app_iff; tauto.
  - intros (H & K) c I. apply in_app_iff in I. destruct I; auto.
Qed.
Lemma one_line_lit (a : str) : forallb (fun c => negb (linebreak c)) a = true -> one_line a.
Proof. intros F c I. rewrite forallb_forall in F. apply F in I. apply negb_true_iff in I. apply mem_false. exact I. Qed.
Lemma one_line_str_nat u : one_line (str_nat u).
Proof.
  intros c I J. pose proof (str_nat_digits u) as F. rewrite Forall_forall in F. apply F in I. destruct (digit_facts c I) as (_ & K). apply (K c J eq_refl).
Qed.
Lemma splitlines_from_line acc s rest : one_line s -> splitlines_from acc (s ++ 10%N :: rest) = (rev acc ++ s) :: splitlines rest.
Proof.
  revert acc. induction s as [|c s IH]; intros acc O; cbn [app splitlines_from].
  - change (linebreak 10%N) with true. cbn iota. rewrite app_nil_r. f_equal. destruct rest as [|d r]; reflexivity.
  - assert (L : linebreak c = false) by (apply mem_false; apply O; left; reflexivity). rewrite L, IH.
    + cbn [rev]. rewrite <- app_assoc. reflexivity.
    + intros x I. apply O. right. exact I.
Qed.
Lemma splitlines_line s rest : one_line s -> splitlines (s ++ 10%N :: rest) = s :: splitlines rest.
Proof. intros O. unfold splitlines. rewrite splitlines_from_line by exact O. reflexivity. Qed.

Definition as_line (i : str) : str := lit "  " ++ i ++ lit ";".
Lemma join_lines l rest : l <> [] -> Forall one_line l ->
  splitlines (lit "  " ++ join (lit ";" ++ 10%N :: lit "  ") l ++ lit ";" ++ 10%N :: rest) = map as_line l ++ splitlines rest.
Proof.
  intros NE F. induction F as [|i l Oi F IH]; [destruct (NE eq_refl)|]. assert (Oa : one_line (as_line i)).
  { unfold as_line. rewrite !one_line_app. repeat split; try (apply one_line_lit; reflexivity). exact Oi. }
  destruct l as [|i' l].
  - cbn [join map app]. rewrite <- (splitlines_line (as_line i) rest Oa). f_equal. unfold as_line. rewrite <- !app_assoc. reflexivity.
  - cbn [map app]. cbn [map app] in IH. rewrite <- IH by discriminate. rewrite <- (splitlines_line (as_line i)) by exact Oa. f_equal. unfold as_line.
    change (join (lit ";" ++ 10%N :: lit "  ") (i :: i' :: l)) with (i ++ (lit ";" ++ 10%N :: lit "  ") ++ join (lit ";" ++ 10%N :: lit "  ") (i' :: l)).
    rewrite <- !app_assoc. reflexivity.
Qed.

(** ** Recognition of the lines *)
Lemma strip_cut s : exists x, skip_spaces s = strip s ++ x.
Proof.
  unfold strip. destruct (skip_cut (rev (skip_spaces s))) as (ws & E & _ & _). exists (rev ws).
  rewrite <- rev_app_distr. rewrite <- E. rewrite rev_involutive. reflexivity.
Qed.
Lemma strip_core ws c s d : spaces ws -> isspace c = false -> isspace d = false -> strip (ws ++ c :: s ++ [d]) = c :: s ++ [d].
Proof.
  intros W C D. unfold strip. rewrite skip_here by (assumption || exact C). change (c :: s ++ [d]) with ((c :: s) ++ [d]). rewrite rev_app_distr. cbn [rev app].
  change (d :: rev s ++ [c]) with ([] ++ d :: rev s ++ [c]). rewrite skip_here by (constructor || exact D). cbn [app rev].
  rewrite rev_app_distr, rev_involutive. reflexivity.
Qed.
Lemma digit09_in c : digit09 c = true -> In c (lit "0123456789").
Proof.
  unfold digit09. rewrite andb_true_iff, !N.leb_le. intros D. cbn.
  assert (X : (c = 48 \/ c = 49 \/ c = 50 \/ c = 51 \/ c = 52 \/ c = 53 \/ c = 54 \/ c = 55 \/ c = 56 \/ c = 57)%N) by lia. intuition.
Qed.

Section ReadLines.
  Variable add_edge : graph -> nat -> nat -> graph * res (gedge * bool).
  Notation read_line := (read_line add_edge).

  Definition nodigit (s : str) : Prop := match skip_spaces s with [] => True | c :: _ => ~ In c (lit "0123456789") end.
  Lemma read_quiet s line : nodigit line -> read_line s line = (s, Ok tt).
  Proof.
    intros Q. unfold nodigit in Q. destruct (strip_cut line) as (x & E). rewrite E in Q. unfold Graphviz.read_line, match_line_vertex, match_line_edge.
    assert (X : span digit09 (strip line) = ([], strip line)).
    { destruct (strip line) as [|c r]; [reflexivity|]. cbn [app] in Q. cbn [span]. destruct (digit09 c) eqn:D; [destruct (Q (digit09_in c D))|reflexivity]. }
    rewrite X. reflexivity.
  Qed.
  Lemma style_nodigit s : style_ok s -> nodigit (as_line s).
  Proof.
    intros (_ & H). unfold nodigit, as_line. destruct (skip_cut s) as (ws & E & W & C).
    destruct (skip_spaces s) as [|c r] eqn:Es.
    - rewrite E, app_nil_r. rewrite app_assoc. rewrite (skip_here (lit "  " ++ ws) (lit ";")); [cbn; intuition discriminate| |reflexivity].
      unfold spaces. apply Forall_app. split; [repeat constructor|exact W].
    - rewrite E, <- app_assoc. cbn [app]. rewrite app_assoc, skip_here; [|unfold spaces; apply Forall_app; split; [repeat constructor|exact W]|exact C].
      apply (H ws c r E W C).
  Qed.

  (** [s] is empty, or between brackets on one line *)
  Definition opts_form (s : str) : Prop := s = [] \/ exists body, s = lit "[" ++ body ++ lit "]" /\ one_line body.
  Lemma opts_body body : one_line body -> match_opts_body (body ++ lit "]" ++ lit ";") = true.
  Proof.
    intros O. induction body as [|c body IH]; [reflexivity|]. cbn [app match_opts_body]. rewrite IH by (intros x I; apply O; right; exact I).
    assert (X : eqb c 10%N = false) by (apply eqb_neq; intros ->; apply (O 10%N); [left; reflexivity|left; reflexivity]). rewrite X. apply orb_true_r.
  Qed.
  Lemma opts_match p : opts_form p -> match_opts (lit " " ++ p ++ lit ";") = true.
  Proof.
    intros [-> | (body & -> & O)]; [reflexivity|]. unfold match_opts.
    rewrite skip_here; [|repeat constructor|reflexivity]. rewrite <- !app_assoc. change (lit "[") with [ch "["]. cbn [app]. rewrite eqb_refl.
    cbn [andb]. apply orb_true_iff. left. apply opts_body. exact O.
  Qed.
  Lemma span_nat u r : match r with [] => True | c :: _ => digit09 c = false end -> span digit09 (str_nat u ++ r) = (str_nat u, r).
  Proof. intros H. apply span_here; [apply str_nat_digits|exact H]. Qed.
  Lemma str_nat_cons u : exists c s, str_nat u = c :: s /\ isspace c = false.
  Proof.
    pose proof (str_nat_nonempty u) as N. pose proof (str_nat_digits u) as F. destruct (str_nat u) as [|c s]; [destruct (N eq_refl)|]. exists c, s. split; [reflexivity|].
    apply Forall_cons_iff in F. apply digit_facts. apply F.
  Qed.
  Lemma strip_line u r : strip (as_line (str_nat u ++ r)) = str_nat u ++ r ++ lit ";".
  Proof.
    unfold as_line. destruct (str_nat_cons u) as (c & s & E & C). rewrite E. rewrite <- !app_assoc. cbn [app].
    pose proof (strip_core (lit "  ") c (s ++ r) (ch ";") (ltac:(repeat constructor)) C eq_refl) as X. rewrite <- !app_assoc in X. exact X.
  Qed.
  Lemma match_vertex u r : match r with [] => True | c :: _ => digit09 c = false end ->
    match_line_vertex (str_nat u ++ r) = if match_opts r then Some (str_nat u) else None.
  Proof. intros H. unfold match_line_vertex. rewrite span_nat by exact H. pose proof (str_nat_nonempty u). destruct (str_nat u); [contradiction|reflexivity]. Qed.

  Lemma read_vertex s u p : opts_form p ->
    read_line s (as_line (join (lit " ") [str_nat u; p])) = on_vertex s (str_nat u).
  Proof.
    intros P. unfold Graphviz.read_line. cbn [join]. rewrite strip_line. rewrite <- app_assoc.
    rewrite match_vertex by reflexivity. rewrite opts_match by exact P. reflexivity.
  Qed.
  Lemma read_arc s u v p : opts_form p ->
    read_line s (as_line (join (lit " ") [str_nat u; lit "->"; str_nat v; p])) = on_edge add_edge s (str_nat u) (str_nat v).
  Proof.
    intros P. unfold Graphviz.read_line. cbn [join]. rewrite strip_line. rewrite <- !app_assoc.
    rewrite match_vertex by reflexivity. change (match_opts (lit " " ++ lit "->" ++ lit " " ++ str_nat v ++ lit " " ++ p ++ lit ";")) with false. cbn iota.
    unfold match_line_edge. rewrite span_nat by reflexivity. pose proof (str_nat_nonempty u) as Nu. destruct (str_nat u) as [|cu su]; [contradiction|].
    rewrite (skip_here (lit " ")); [|repeat constructor|reflexivity]. change (lit "->") with [ch "-"; ch ">"]. cbn [app]. rewrite !eqb_refl. cbn [andb].
    rewrite (skip_here (lit " ")); [|repeat constructor|destruct (str_nat_cons v) as (c & s' & E & C); rewrite E; exact C].
    rewrite span_nat by reflexivity. pose proof (str_nat_nonempty v) as Nv. destruct (str_nat v) as [|cv sv]; [contradiction|]. rewrite opts_match by exact P. reflexivity.
  Qed.
  Lemma read_undirected s u v p : read_line s (as_line (join (lit " ") [str_nat u; lit "--"; str_nat v; p])) = (s, Ok tt).
  Proof.
    unfold Graphviz.read_line. cbn [join]. rewrite strip_line. rewrite <- !app_assoc.
    rewrite match_vertex by reflexivity. change (match_opts (lit " " ++ lit "--" ++ lit " " ++ str_nat v ++ lit " " ++ p ++ lit ";")) with false. cbn iota.
    unfold match_line_edge. rewrite span_nat by reflexivity. destruct (str_nat u); [reflexivity|]. reflexivity.
  Qed.
End ReadLines.

Lemma foreach_app {S A} (f : S -> A -> S * res unit) s l l' s' : foreach f s l = (s', Ok tt) -> foreach f s (l ++ l') = foreach f s' l'.
Proof.
  revert s. induction l as [|x l IH]; intros s E; cbn in *; [injection E as ->; reflexivity|]. destruct (f s x) as [s1 [|]]; [|discriminate]. auto.
Qed.
Lemma foreach_noop {S A} (f : S -> A -> S * res unit) s l : (forall x, In x l -> f s x = (s, Ok tt)) -> foreach f s l = (s, Ok tt).
Proof. intros H. induction l as [|x l IH]; cbn; [reflexivity|]. rewrite H by (left; reflexivity). apply IH. intros y I. apply H. right. exact I. Qed.
