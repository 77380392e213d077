(** Lemmas on reading JSON. *)
From Coq Require Import String Decimal DecimalString DecimalNat DecimalFacts.
From Verif Require Import Str Graph Graphviz GraphvizProofs2 GraphDp JsonSpec.
From Verif Require Import Base BaseProofs.
Open Scope string_scope.
Open Scope nat_scope.
Open Scope list_scope.

Notation len := List.length.

Definition blank (w : str) : Prop := forall c, In c w -> ws c = true.
Lemma skip_blank w s : blank w -> skip (w ++ s) = skip s.
Proof. induction w as [|c w IH]; intros B; [reflexivity|]. cbn [app skip]. rewrite (B c) by (left; reflexivity). apply IH. intros x I. apply B. right. exact I. Qed.
Lemma skip_char c s : ws c = false -> skip (c :: s) = c :: s.
Proof. intros W. cbn [skip]. rewrite W. reflexivity. Qed.
Lemma blank_lit w : forallb ws w = true -> blank w.
Proof. intros F c I. rewrite forallb_forall in F. apply F, I. Qed.

Lemma p_string_plain s : plain s -> forall r, p_string (s ++ lit """" ++ r) = Some (s, r).
Proof.
  induction s as [|c s IH]; intros P r; [reflexivity|]. destruct (P c) as (P1 & P2 & P3); [left; reflexivity|]. cbn [app p_string].
  destruct (eqb_spec c (ch """")) as [E|_]; [contradiction|]. destruct (eqb_spec c (ch "\")) as [E|_]; [contradiction|].
  destruct (N.ltb_spec c 32); [lia|]. rewrite IH; [reflexivity|]. intros x I. apply P. right. exact I.
Qed.

(** [s] is the text of [v], when followed by the end, a space, or one of the characters , ] } *)
Definition delim (r : str) : Prop := match r with [] => True | c :: _ => ws c = true \/ In c (lit ",]}") end.
Definition starts (s : str) : Prop := exists c s', s = c :: s' /\ ws c = false /\ c <> ch "]" /\ c <> ch "}".
Definition reads (s : str) (v : json) : Prop := starts s /\ forall n r, S (2 * len s) <= n -> delim r -> p_value n (s ++ r) = Some (v, r).

Lemma reads_string s : plain s -> reads (quoted s) (JStr s).
Proof.
  intros P. split; [exists (ch """"), (s ++ lit """"); repeat split; discriminate|]. intros [|n] r L _; [lia|]. unfold quoted.
  change ((lit """" ++ s ++ lit """") ++ r) with (ch """" :: (s ++ lit """") ++ r). rewrite <- app_assoc. cbn [p_value].
  change (eqb (ch """") (ch """")) with true. cbn iota. rewrite (p_string_plain s P). reflexivity.
Qed.

(** *** Numbers *)
Lemma digit_not c d : digit c = true -> digit d = false -> eqb c d = false.
Proof. intros D D'. destruct (eqb_spec c d) as [->|N]; [congruence|reflexivity]. Qed.
Lemma digits_app d r : Forall (fun c => digit c = true) d -> delim r -> digits (d ++ r) = (d, r).
Proof.
  intros F D. induction F as [|c d X F IH]; cbn [app digits].
  - destruct r as [|c r]; [reflexivity|]. cbn [digits]. assert (X : digit c = false); [|rewrite X; reflexivity]. unfold delim in D. destruct D as [D|D].
    + unfold ws in D. apply mem_spec in D. cbn in D. destruct D as [<-|[<-|[<-|[<-|[]]]]]; reflexivity.
    + destruct D as [<-|[<-|[<-|[]]]]; reflexivity.
  - rewrite X, IH. reflexivity.
Qed.
Lemma str_nat_zero u : str_nat u = [48%N] \/ exists c s, str_nat u = c :: s /\ eqb c 48%N = false.
Proof.
  unfold str_nat. assert (N : Nat.to_uint u = Decimal.unorm (Nat.to_uint u)) by (rewrite <- (Unsigned.to_of (Nat.to_uint u)), Unsigned.of_to; reflexivity).
  unfold Decimal.unorm in N. pose proof (DecimalFacts.nzhead_nonzero (Nat.to_uint u)) as Z.
  destruct (Decimal.nzhead (Nat.to_uint u)) as [|d|d|d|d|d|d|d|d|d|d]; rewrite N; try (right; eexists; eexists; split; reflexivity).
  - left. reflexivity.
  - exfalso. apply (Z d). reflexivity.
Qed.
Lemma reads_nat u : reads (str_nat u) (JNum (str_nat u)).
Proof.
  assert (D : Forall (fun c => digit c = true) (str_nat u)) by apply str_nat_digits.
  assert (X : exists c s, str_nat u = c :: s /\ digit c = true).
  { pose proof (str_nat_nonempty u) as NE. destruct (str_nat u) as [|c s]; [contradiction|]. exists c, s. split; [reflexivity|]. inversion D. assumption. }
  destruct X as (c & s & E & DC). split.
  - exists c, s. split; [exact E|]. unfold digit in DC. rewrite andb_true_iff, !N.leb_le in DC. split.
    + unfold ws. apply mem_false. cbn. lia.
    + change (ch "]") with 93%N. change (ch "}") with 125%N. lia.
  - intros [|n] r L DR; [lia|].
    assert (PN : p_number (str_nat u ++ r) = Some (str_nat u, r)).
    { unfold p_number. rewrite E at 1. cbn [app]. rewrite (digit_not c (ch "-") DC eq_refl).
      assert (PI : p_int (str_nat u ++ r) = Some (str_nat u, r)).
      { destruct (str_nat_zero u) as [Z|(c' & s' & Z & NZ)].
        - rewrite Z. reflexivity.
        - assert (c' = c /\ s' = s) as [-> ->] by (rewrite E in Z; injection Z as -> ->; auto). rewrite E at 1. cbn [app p_int]. rewrite NZ, DC. change (c :: s ++ r) with ((c :: s) ++ r). rewrite <- ?E. f_equal. apply digits_app; assumption. }
      rewrite PI. assert (PF : p_frac r = Some ([], r) /\ p_exp r = Some ([], r)).
      { destruct r as [|d r]; [split; reflexivity|]. unfold delim in DR. assert (Y : eqb d (ch ".") = false /\ eqb d (ch "e") = false /\ eqb d (ch "E") = false).
        { destruct DR as [DR|DR]; [unfold ws in DR; apply mem_spec in DR; cbn in DR; destruct DR as [<-|[<-|[<-|[<-|[]]]]]|destruct DR as [<-|[<-|[<-|[]]]]]; repeat split. }
        destruct Y as (Y1 & Y2 & Y3). unfold p_frac, p_exp. rewrite Y1, Y2, Y3. split; reflexivity. }
      destruct PF as [-> ->]. cbn [app]. rewrite !app_nil_r. reflexivity. }
    rewrite E in *. cbn [app p_value] in *. rewrite !(digit_not c _ DC) by reflexivity.
    assert (NL : forall a p, digit a = false -> after_prefix (a :: p) (c :: s ++ r) = None).
    { intros a p A. cbn [after_prefix]. destruct (eqb_spec a c) as [->|_]; [congruence|reflexivity]. }
    change (lit "null") with (ch "n" :: lit "ull"). change (lit "true") with (ch "t" :: lit "rue"). change (lit "false") with (ch "f" :: lit "alse").
    rewrite !NL by reflexivity. rewrite PN. reflexivity.
Qed.

(** *** Arrays *)
Lemma delim_blank w c r : blank w -> In c (lit ",]}") -> delim (w ++ c :: r).
Proof. intros B I. destruct w as [|d w]; cbn; [right; exact I|left; apply B; left; reflexivity]. Qed.
Lemma items l : Forall2 reads (map fst l) (map snd l) -> forall w sep r n, l <> [] -> blank w -> blank sep -> 2 * len (join (ch "," :: sep) (map fst l)) + 2 <= n ->
  p_items n (join (ch "," :: sep) (map fst l) ++ w ++ ch "]" :: r) = Some (map snd l, r).
Proof.
  induction l as [|[s v] l IH]; intros F w sep r n NE B BS L; [contradiction|]. cbn [map fst snd] in *. inversion F as [|? ? ? ? R F']; subst. destruct n as [|n]; [lia|]. cbn [p_items].
  destruct l as [|[s' v'] l].
  - cbn [join map] in *. rewrite (proj2 R); [|lia|apply delim_blank; [exact B|cbn; auto]]. rewrite (skip_blank w _ B). reflexivity.
  - assert (J : join (ch "," :: sep) (s :: map fst ((s', v') :: l)) = s ++ (ch "," :: sep) ++ join (ch "," :: sep) (map fst ((s', v') :: l))) by reflexivity.
    rewrite J in *. clear J. rewrite !app_length in L. cbn [List.length] in L. rewrite <- !app_assoc. cbn [app].
    rewrite (proj2 R); [|lia|right; cbn; auto]. rewrite skip_char by reflexivity. change (eqb (ch ",") (ch "]")) with false. change (eqb (ch ",") (ch ",")) with true. cbn iota.
    assert (ST : skip (sep ++ join (ch "," :: sep) (map fst ((s', v') :: l)) ++ w ++ ch "]" :: r) = join (ch "," :: sep) (map fst ((s', v') :: l)) ++ w ++ ch "]" :: r).
    { rewrite (skip_blank sep _ BS). inversion F' as [|? ? ? ? R' _]; subst. destruct R' as [(c & t & E & W & _) _]. destruct l as [|x l]; cbn [map fst join]; cbn [fst] in E; subst s'; cbn [app]; apply skip_char, W. }
    rewrite ST, IH; [reflexivity|exact F'|discriminate|exact B|exact BS|lia].
Qed.
Lemma reads_array l w1 sep w2 : Forall2 reads (map fst l) (map snd l) -> blank w1 -> blank sep -> blank w2 ->
  reads (lit "[" ++ w1 ++ join (ch "," :: sep) (map fst l) ++ w2 ++ lit "]") (JArr (map snd l)).
Proof.
  intros F B1 BS B2. split; [eexists; eexists; split; [reflexivity|]; repeat split; discriminate|]. intros [|n] r L D; [lia|]. change (lit "[") with [ch "["] in *. change (lit "]") with [ch "]"] in *.
  rewrite <- !app_assoc. cbn [app] in *. cbn [p_value].
  change (eqb (ch "[") (ch """")) with false. change (eqb (ch "[") (ch "[")) with true. cbn iota. rewrite (skip_blank w1 _ B1).
  destruct l as [|[s v] l].
  - cbn [map join app]. rewrite (skip_blank w2 _ B2). reflexivity.
  - inversion F as [|? ? ? ? R _]; subst. destruct R as [(c & t & E & W & NC & _) _]. cbn [fst] in E.
    assert (J : exists t', join (ch "," :: sep) (map fst ((s, v) :: l)) = c :: t') by (destruct l as [|x l]; cbn [map fst join]; rewrite E; eexists; reflexivity).
    destruct J as (t' & J). cbn [List.length] in L. rewrite !app_length in L. cbn [List.length] in L.
    pose proof (items _ F w2 sep r n) as I. rewrite J in *. cbn [app] in *. rewrite skip_char by exact W. destruct (eqb_spec c (ch "]")) as [X|_]; [contradiction|].
    rewrite I; [reflexivity|discriminate|exact B2|exact BS|cbn [List.length] in *; lia].
Qed.

(** *** Objects *)
Definition member (m : str * str) : str := quoted (fst m) ++ lit ": " ++ snd m.
Definition reads_member (m : str * str) (kv : str * json) : Prop := plain (fst m) /\ fst kv = fst m /\ reads (snd m) (snd kv).
Lemma members l kv : Forall2 reads_member l kv -> forall w sep r n, l <> [] -> blank w -> blank sep -> 2 * len (join (ch "," :: sep) (map member l)) + 2 <= n ->
  p_members n (join (ch "," :: sep) (map member l) ++ w ++ ch "}" :: r) = Some (kv, r).
Proof.
  induction 1 as [|[k s] [k' v] l kv (P & E & R) F IH]; intros w sep r n NE B BS L; [contradiction|]. cbn [fst snd] in *. subst k'. destruct n as [|n]; [lia|].
  assert (HD : forall x, skip (lit ": " ++ s ++ x) = ch ":" :: lit " " ++ s ++ x) by reflexivity.
  assert (SV : forall x, skip (lit " " ++ s ++ x) = s ++ x).
  { intros x. destruct R as [(c & t & -> & W & _) _]. cbn [app]. rewrite (skip_blank (lit " ")) by (apply blank_lit; reflexivity). apply skip_char, W. }
  assert (ST : forall rest n, 2 * len s + 1 <= n -> delim rest -> p_members (S n) (member (k, s) ++ rest) =
    match skip rest with
    | [] => None
    | c :: r3 => if eqb c (ch "}") then Some ([(k, v)], r3) else if eqb c (ch ",") then match p_members n (skip r3) with Some (l, r4) => Some ((k, v) :: l, r4) | None => None end else None
    end).
  { intros rest m LM D. unfold member, quoted. cbn [fst snd]. rewrite <- !app_assoc. change (lit """" ++ k ++ lit """" ++ lit ": " ++ s ++ rest) with (ch """" :: k ++ lit """" ++ lit ": " ++ s ++ rest).
    cbn [p_members]. change (negb (eqb (ch """") (ch """"))) with false. cbn iota. rewrite (p_string_plain k P), HD. change (negb (eqb (ch ":") (ch ":"))) with false. cbn iota.
    rewrite SV, (proj2 R) by (lia || exact D). reflexivity. }
  assert (LN : len (member (k, s)) = len k + len s + 4) by (unfold member, quoted; cbn [fst snd]; rewrite !app_length; cbn [lit List.length map list_ascii_of_string]; lia).
  destruct F as [|[k2 s2] [k2' v2] l kv R2 F].
  - cbn [map join] in *. rewrite ST; [|lia|apply delim_blank; [exact B|cbn; auto]]. rewrite (skip_blank w _ B). reflexivity.
  - assert (J : join (ch "," :: sep) (map member ((k, s) :: (k2, s2) :: l)) = member (k, s) ++ (ch "," :: sep) ++ join (ch "," :: sep) (map member ((k2, s2) :: l))) by reflexivity.
    rewrite J in *. clear J. rewrite !app_length in L. cbn [List.length] in L. rewrite <- !app_assoc. cbn [app]. rewrite ST; [|lia|right; cbn; auto].
    rewrite skip_char by reflexivity. change (eqb (ch ",") (ch "}")) with false. change (eqb (ch ",") (ch ",")) with true. cbn iota.
    assert (SK : skip (sep ++ join (ch "," :: sep) (map member ((k2, s2) :: l)) ++ w ++ ch "}" :: r) = join (ch "," :: sep) (map member ((k2, s2) :: l)) ++ w ++ ch "}" :: r).
    { rewrite (skip_blank sep _ BS). destruct l as [|x l]; cbn [map join]; unfold member at 1; unfold quoted; cbn [lit map list_ascii_of_string]; cbn [app]; apply skip_char; reflexivity. }
    rewrite SK, IH; [reflexivity|discriminate|exact B|exact BS|lia].
Qed.
Lemma reads_object l kv w1 sep w2 : l <> [] -> Forall2 reads_member l kv -> blank w1 -> blank sep -> blank w2 ->
  reads (lit "{" ++ w1 ++ join (ch "," :: sep) (map member l) ++ w2 ++ lit "}") (JObj kv).
Proof.
  intros NE F B1 BS B2. split; [eexists; eexists; split; [reflexivity|]; repeat split; discriminate|]. intros [|n] r L D; [lia|]. change (lit "{") with [ch "{"] in *. change (lit "}") with [ch "}"] in *.
  rewrite <- !app_assoc. cbn [app] in *. cbn [p_value].
  change (eqb (ch "{") (ch """")) with false. change (eqb (ch "{") (ch "[")) with false. change (eqb (ch "{") (ch "{")) with true. cbn iota. rewrite (skip_blank w1 _ B1).
  assert (J : exists t', join (ch "," :: sep) (map member l) = ch """" :: t') by (destruct l as [|x [|y l]]; [contradiction|eexists; reflexivity|eexists; reflexivity]).
  destruct J as (t' & J). cbn [List.length] in L. rewrite !app_length in L. cbn [List.length] in L. pose proof (members _ _ F w2 sep r n) as I. rewrite J in *. cbn [app] in *.
  rewrite skip_char by reflexivity. change (eqb (ch """") (ch "}")) with false. cbn iota. rewrite I; [reflexivity|exact NE|exact B2|exact BS|cbn [List.length] in *; lia].
Qed.
Lemma reads_json s v : reads s v -> json_read s = Some v.
Proof.
  intros [(c & t & -> & W & _) R]. unfold json_read. rewrite skip_char by exact W. specialize (R (S (2 * len (c :: t))) []). rewrite app_nil_r in R. rewrite R by (apply le_n || exact I). reflexivity.
Qed.

(** *** The texts of GraphDp.to_json *)
Definition attribute_members {X} (x : X) (dpx : dict str (X -> option str)) : list (str * str) := map (fun '(k, p) => (k, quoted (percent_s (p x)))) dpx.
Definition attribute_values {X} (x : X) (dpx : dict str (X -> option str)) : list (str * json) := map (fun '(k, p) => (k, JStr (percent_s (p x)))) dpx.
Lemma reads_attributes {X} (x : X) dpx : (forall k p, In (k, p) dpx -> plain k /\ plain (percent_s (p x))) -> Forall2 reads_member (attribute_members x dpx) (attribute_values x dpx).
Proof.
  induction dpx as [|[k p] dpx IH]; intros H; [constructor|]. cbn [attribute_members attribute_values map]. constructor.
  - destruct (H k p) as [P1 P2]; [left; reflexivity|]. split; [exact P1|]. split; [reflexivity|]. apply reads_string, P2.
  - apply IH. intros k' p' I. apply (H k' p'). right. exact I.
Qed.
Lemma json_attributes_join {X} (x : X) dpx : json_attributes x dpx = join (ch "," :: nl ++ indent12) (map member (attribute_members x dpx)).
Proof. unfold json_attributes, attribute_members. rewrite map_map. change (lit "," ++ nl ++ indent12) with (ch "," :: nl ++ indent12). f_equal. apply map_ext. intros [k p]. reflexivity. Qed.
Lemma plain_lit s : forallb (fun c => (32 <=? c)%N && negb (eqb c (ch """")) && negb (eqb c (ch "\"))) s = true -> plain s.
Proof.
  intros F c I. rewrite forallb_forall in F. apply F in I. rewrite !andb_true_iff, !negb_true_iff, N.leb_le in I. destruct I as [[I1 I2] I3].
  split; [exact I1|]. split; intros ->; [rewrite eqb_refl in I2|rewrite eqb_refl in I3]; discriminate.
Qed.
Lemma blank_nl : blank (nl ++ indent12). Proof. apply blank_lit. reflexivity. Qed.
(** the members before the attributes, then the attributes, if any *)
Lemma reads_record {X} (x : X) dpx l kv : l <> [] -> Forall2 reads_member l kv -> (forall k p, In (k, p) dpx -> plain k /\ plain (percent_s (p x))) ->
  reads (lit "{" ++ nl ++ indent12 ++ join (ch "," :: nl ++ indent12) (map member l) ++ json_sep dpx ++ nl ++ indent12 ++ json_attributes x dpx ++ nl ++ lit "        }") (JObj (kv ++ attribute_values x dpx)).
Proof.
  intros NE F H. pose proof (reads_attributes x dpx H) as FA. destruct dpx as [|a dpx].
  - cbn [json_sep app json_attributes map join attribute_values]. rewrite app_nil_r.
    pose proof (reads_object l kv (nl ++ indent12) (nl ++ indent12) (nl ++ indent12 ++ nl ++ lit "        ") NE F blank_nl blank_nl (blank_lit (nl ++ indent12 ++ nl ++ lit "        ") eq_refl)) as R.
    rewrite <- !app_assoc in R. exact R.
  - pose proof (reads_object (l ++ attribute_members x (a :: dpx)) (kv ++ attribute_values x (a :: dpx)) (nl ++ indent12) (nl ++ indent12) (nl ++ lit "        ")) as R.
    assert (J : forall l', l <> [] -> l' <> [] -> join (ch "," :: nl ++ indent12) (map member (l ++ l')) = join (ch "," :: nl ++ indent12) (map member l) ++ (lit "," ++ nl ++ indent12) ++ join (ch "," :: nl ++ indent12) (map member l')).
    { clear. intros l' N N'. induction l as [|m l IH]; [contradiction|]. destruct l as [|m2 l].
      - destruct l' as [|m' l']; [contradiction|]. reflexivity.
      - change (map member ((m :: m2 :: l) ++ l')) with (member m :: member m2 :: map member (l ++ l')). specialize (IH ltac:(discriminate)).
        change (map member ((m2 :: l) ++ l')) with (member m2 :: map member (l ++ l')) in IH.
        change (join (ch "," :: nl ++ indent12) (member m :: member m2 :: map member (l ++ l'))) with (member m ++ (ch "," :: nl ++ indent12) ++ join (ch "," :: nl ++ indent12) (member m2 :: map member (l ++ l'))).
        rewrite IH. change (join (ch "," :: nl ++ indent12) (map member (m :: m2 :: l))) with (member m ++ (ch "," :: nl ++ indent12) ++ join (ch "," :: nl ++ indent12) (map member (m2 :: l))).
        rewrite <- !app_assoc. reflexivity. }
    rewrite (J (attribute_members x (a :: dpx)) NE) in R by discriminate. clear J. rewrite <- json_attributes_join in R.
    change (json_sep (a :: dpx)) with (lit ","). rewrite <- !app_assoc in R. apply R.
    + destruct l; discriminate.
    + apply Forall2_app; assumption.
    + exact blank_nl.
    + exact blank_nl.
    + apply blank_lit. reflexivity.
Qed.
