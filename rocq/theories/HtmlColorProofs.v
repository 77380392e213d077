(** Proofs about html_color_to_graphviz. *)
From Coq Require Import String ZArith QArith.
Open Scope string_scope. Open Scope nat_scope. Open Scope list_scope.
From Verif Require Import Str Regexp Graphviz GraphvizSpec GraphvizProofs Misc MiscSpec MiscProofs HtmlColor HtmlColorSpec Base BaseProofs.

Lemma find_char_here c x y : ~ In c x -> find_char c (x ++ c :: y) = Some (List.length x).
Proof.
  induction x as [|a x IH]; cbn; intros N; [rewrite eqb_refl; reflexivity|].
  destruct (eqb_spec a c) as [->|_]; [exfalso; apply N; left; reflexivity|]. rewrite IH; [reflexivity|]. intros I. apply N. right. exact I.
Qed.
Lemma rfind_char_here c x y : ~ In c y -> rfind_char c (x ++ c :: y) = Some (List.length x).
Proof.
  intros N. unfold rfind_char. rewrite rev_app_distr. cbn [rev]. rewrite <- app_assoc. cbn [app]. rewrite find_char_here by (rewrite <- in_rev; exact N).
  rewrite app_length, rev_length. cbn. f_equal. lia.
Qed.
Lemma split_on_last c x : ~ In c x -> split_on c x = [x].
Proof.
  induction x as [|a x IH]; cbn; intros N; [reflexivity|]. destruct (eqb_spec a c) as [->|_]; [exfalso; apply N; left; reflexivity|].
  rewrite IH by (intros I; apply N; right; exact I). reflexivity.
Qed.
Lemma split_on_cons c x y : ~ In c x -> split_on c (x ++ c :: y) = x :: split_on c y.
Proof.
  induction x as [|a x IH]; cbn; intros N; [rewrite eqb_refl; reflexivity|]. destruct (eqb_spec a c) as [->|_]; [exfalso; apply N; left; reflexivity|].
  rewrite IH by (intros I; apply N; right; exact I). reflexivity.
Qed.

Definition digit (c : char) : Prop := In c (lit "0123456789").
Lemma digit_isdigit c : digit c -> isdigit c = true.
Proof. intros I. cbn in I. repeat (destruct I as [<-|I]; [reflexivity|]). destruct I. Qed.
Lemma digit_noblank c : digit c -> isspace c = false.
Proof. intros I. cbn in I. repeat (destruct I as [<-|I]; [reflexivity|]). destruct I. Qed.
Lemma digit_not c d : digit c -> negb (mem d (lit "0123456789")) = true -> c <> d.
Proof. intros I N ->. destruct (mem_reflect d (lit "0123456789")); [discriminate|contradiction]. Qed.
Lemma blank_not c d : isspace c = true -> isspace d = false -> c <> d.
Proof. congruence. Qed.

Lemma int_digits_spec d : Forall digit d -> forall b acc, (b = true \/ d <> []) -> int_digits b acc d = Some (acc * 10 ^ Z.of_nat (List.length d) + numeral_value d)%Z.
Proof.
  induction 1 as [|c d I F IH]; intros b acc H; cbn [int_digits].
  - destruct H as [->|H]; [|congruence]. cbn. f_equal. lia.
  - rewrite (digit_isdigit _ I). rewrite IH by auto. cbn [numeral_value List.length]. rewrite Nat2Z.inj_succ, Z.pow_succ_r by lia. f_equal. ring.
Qed.

Lemma field_int f n : a_field f n -> py_int (filter (fun c => negb (eqb c (ch "%"))) f) = Ok n.
Proof.
  intros (b & d & p & b' & -> & Fb & Fb' & [N F] & E & Hp).
  assert (Kb : forall b, Forall (fun c => isspace c = true) b -> filter (fun c => negb (eqb c (ch "%"))) b = b).
  { intros l Fl. induction Fl as [|c l I Fl IH]; [reflexivity|]. cbn [filter]. destruct (eqb_spec c (ch "%")) as [->|]; [discriminate|]. cbn [negb]. f_equal. exact IH. }
  assert (Kd : filter (fun c => negb (eqb c (ch "%"))) d = d).
  { clear E N. induction F as [|c l I Fl IH]; [reflexivity|]. cbn [filter]. destruct (eqb_spec c (ch "%")) as [->|]; [exfalso; vm_compute in I; repeat (destruct I as [I|I]; [discriminate|]); destruct I|]. cbn [negb]. f_equal. exact IH. }
  assert (Kp : filter (fun c => negb (eqb c (ch "%"))) p = []) by (destruct Hp as [->| ->]; reflexivity).
  rewrite !filter_app, Kb, Kd, Kp, Kb by assumption. cbn [app]. unfold py_int.
  assert (S : strip (b ++ d ++ b') = d).
  { destruct d as [|c d0] eqn:Ed; [congruence|]. unfold strip. rewrite skip_here; [|exact Fb|cbn; apply digit_noblank; inversion F; assumption].
    rewrite rev_app_distr. rewrite skip_here; [apply rev_involutive|apply Forall_rev, Fb'|].
    destruct (rev (c :: d0)) as [|z zs] eqn:Ez; [exact I|]. apply digit_noblank. rewrite Forall_forall in F. apply F. apply in_rev. rewrite Ez. left. reflexivity. }
  rewrite S. destruct d as [|c d0]; [congruence|]. inversion F as [|? ? Ic F0]; subst.
  destruct (eqb_spec c (ch "+")) as [->|_]; [exfalso; apply (digit_not _ (ch "+") Ic); reflexivity|].
  destruct (eqb_spec c (ch "-")) as [->|_]; [exfalso; apply (digit_not _ (ch "-") Ic); reflexivity|].
  rewrite (int_digits_spec (c :: d0) F false 0%Z) by (right; discriminate). f_equal.
Qed.
Lemma field_no f n c : a_field f n -> isspace c = false -> negb (mem c (lit "0123456789%")) = true -> ~ In c f.
Proof.
  intros (b & d & p & b' & -> & Fb & Fb' & [N F] & E & Hp) Sc Nc I. rewrite !in_app_iff in I. rewrite !Forall_forall in *.
  assert (X : ~ In c (lit "0123456789%")) by (destruct (mem_reflect c (lit "0123456789%")); [discriminate|assumption]).
  destruct I as [I|[I|[I|I]]].
  - apply Fb in I. congruence.
  - apply F in I. apply X. cbn in *. tauto.
  - destruct Hp as [->| ->]; [destruct I|]. apply X. cbn in *. tauto.
  - apply Fb' in I. congruence.
Qed.

Lemma html_hsl show color hue saturation lightness : hsl_text color hue saturation lightness ->
  html_color_to_graphviz show color =
    (let '(h, s, v) := hsl_to_hsv (inject_Z hue / 360) (inject_Z saturation / 100) (inject_Z lightness / 100) in
     Ok (join (lit ", ") [show h; show s; show v])).
Proof.
  intros (x & f1 & f2 & f3 & y & -> & Nx & Ny & H1 & H2 & H3). unfold html_color_to_graphviz.
  assert (S : startswith (lit "hsl") (lit "hsl" ++ x ++ lit "(" ++ f1 ++ lit "," ++ f2 ++ lit "," ++ f3 ++ lit ")" ++ y) = true) by reflexivity. rewrite S. clear S.
  set (inside := f1 ++ lit "," ++ f2 ++ lit "," ++ f3).
  assert (E : lit "hsl" ++ x ++ lit "(" ++ f1 ++ lit "," ++ f2 ++ lit "," ++ f3 ++ lit ")" ++ y = (lit "hsl" ++ x) ++ ch "(" :: inside ++ ch ")" :: y).
  { unfold inside. rewrite <- !app_assoc. reflexivity. }
  rewrite E. rewrite find_char_here.
  2:{ rewrite in_app_iff. intros [I|I]; [|contradiction]. vm_compute in I. repeat (destruct I as [I|I]; [discriminate|]). destruct I. }
  assert (E' : (lit "hsl" ++ x) ++ ch "(" :: inside ++ ch ")" :: y = ((lit "hsl" ++ x) ++ ch "(" :: inside) ++ ch ")" :: y) by (rewrite <- !app_assoc; reflexivity).
  rewrite E' at 1. rewrite rfind_char_here by exact Ny.
  assert (F : firstn (List.length ((lit "hsl" ++ x) ++ ch "(" :: inside) - S (List.length (lit "hsl" ++ x))) (skipn (S (List.length (lit "hsl" ++ x))) ((lit "hsl" ++ x) ++ ch "(" :: inside ++ ch ")" :: y)) = inside).
  { set (u := lit "hsl" ++ x). replace (u ++ ch "(" :: inside ++ ch ")" :: y) with ((u ++ [ch "("]) ++ inside ++ ch ")" :: y) by (rewrite <- app_assoc; reflexivity).
    replace (S (List.length u)) with (List.length (u ++ [ch "("]) + 0) by (rewrite app_length; cbn; lia). rewrite skipn_app, skipn_all2 by lia. 
    replace (List.length (u ++ [ch "("]) + 0 - List.length (u ++ [ch "("])) with 0 by lia. cbn [skipn app].
    replace (List.length (u ++ ch "(" :: inside) - (List.length (u ++ [ch "("]) + 0)) with (List.length inside + 0) by (rewrite !app_length; cbn; lia).
    rewrite firstn_app_2. cbn. apply app_nil_r. }
  rewrite F. unfold inside. change (lit ",") with [ch ","]. cbn [app].
  rewrite split_on_cons by (apply (field_no _ _ _ H1); reflexivity). rewrite split_on_cons by (apply (field_no _ _ _ H2); reflexivity). rewrite split_on_last by (apply (field_no _ _ _ H3); reflexivity).
  cbn [ints]. rewrite (field_int _ _ H1), (field_int _ _ H2), (field_int _ _ H3). cbn [rbind normalize_color_tuple].
  destruct (hsl_to_hsv (inject_Z hue / 360) (inject_Z saturation / 100) (inject_Z lightness / 100)) as [[h s] v]. reflexivity.
Qed.

(** ** int() *)
Lemma isdigit_digit c : isdigit c = true <-> digit c.
Proof.
  split; [|apply digit_isdigit]. unfold isdigit. intros H. apply andb_true_iff in H. destruct H as [H1 H2]. apply N.leb_le in H1. apply N.leb_le in H2.
  assert (X : (c = 48 \/ c = 49 \/ c = 50 \/ c = 51 \/ c = 52 \/ c = 53 \/ c = 54 \/ c = 55 \/ c = 56 \/ c = 57)%N) by lia. unfold digit. change (lit "0123456789") with [48; 49; 50; 51; 52; 53; 54; 55; 56; 57]%N. cbn [In]. intuition.
Qed.
Definition body (d : str) (groups : list str) : str := d ++ flat_map (fun g => lit "_" ++ g) groups.
Lemma numeral_app u v : (numeral_value (u ++ v) = numeral_value u * 10 ^ Z.of_nat (List.length v) + numeral_value v)%Z.
Proof.
  induction u as [|c u IH]; [reflexivity|]. cbn [app numeral_value]. rewrite IH, app_length, Nat2Z.inj_add, Z.pow_add_r by lia. ring.
Qed.
Lemma int_digits_exact s : forall b acc n, int_digits b acc s = Some n <->
  exists d groups, (b = true \/ d <> []) /\ Forall digit d /\ Forall numeral groups /\ s = body d groups /\ n = (acc * 10 ^ Z.of_nat (List.length (d ++ concat groups)) + numeral_value (d ++ concat groups))%Z.
Proof.
  induction s as [|c s IH]; intros b acc n; cbn [int_digits].
  - split.
    + destruct b; [|discriminate]. intros [= <-]. exists [], []. split; [auto|]. split; [constructor|]. split; [constructor|]. split; [reflexivity|]. cbn. lia.
    + intros (d & groups & H & _ & _ & E & ->). unfold body in E. destruct d as [|x d]; [|discriminate]. destruct groups as [|g groups]; [|discriminate]. destruct H as [->|H]; [|congruence]. cbn. f_equal. lia.
  - destruct (isdigit c) eqn:D.
    + apply isdigit_digit in D. rewrite IH. split.
      * intros (d & groups & _ & F & G & -> & ->). exists (c :: d), groups. split; [right; discriminate|]. split; [constructor; assumption|]. split; [exact G|]. split; [reflexivity|].
        cbn [app List.length numeral_value]. rewrite Nat2Z.inj_succ, Z.pow_succ_r by lia. ring.
      * intros (d & groups & H & F & G & E & ->). destruct d as [|x d].
        -- destruct groups as [|g groups]; [discriminate|]. cbn in E. injection E as -> _. exfalso. apply (digit_not _ (ch "_") D); reflexivity.
        -- cbn in E. injection E as -> ->. exists d, groups. inversion F; subst. split; [auto|]. split; [assumption|]. split; [exact G|]. split; [reflexivity|].
           cbn [app List.length numeral_value]. rewrite Nat2Z.inj_succ, Z.pow_succ_r by lia. ring.
    + assert (ND : ~ digit c) by (rewrite <- isdigit_digit; congruence). destruct (eqb_spec c (ch "_")) as [->|NU]; cbn [andb].
      * destruct b.
        -- rewrite IH. split.
           ++ intros (d & groups & H & F & G & -> & ->). destruct H as [H|H]; [discriminate|]. exists [], (d :: groups). split; [auto|]. split; [constructor|]. split; [constructor; [split; assumption|exact G]|]. split; reflexivity.
           ++ intros (d & groups & H & F & G & E & ->). destruct d as [|x d]; [|cbn in E; injection E as <- _; inversion F; contradiction]. destruct groups as [|g groups]; [discriminate|]. cbn in E. injection E as ->.
              inversion G as [|? ? [G1 G2] G3]; subst. exists g, groups. split; [auto|]. split; [exact G2|]. split; [exact G3|]. split; reflexivity.
        -- split; [discriminate|]. intros (d & groups & H & F & G & E & _). destruct H as [H|H]; [discriminate|]. destruct d as [|x d]; [congruence|]. cbn in E. injection E as <- _. inversion F; contradiction.
      * split; [discriminate|]. intros (d & groups & H & F & G & E & _). destruct d as [|x d]; [destruct groups as [|g groups]; [discriminate|cbn in E; injection E as E _; contradiction]|]. cbn in E. injection E as <- _. inversion F; contradiction.
Qed.
Lemma int_digits_body s n : int_digits false 0 s = Some n <-> exists d groups, numeral d /\ Forall numeral groups /\ s = body d groups /\ n = numeral_value (d ++ concat groups).
Proof.
  rewrite int_digits_exact. split.
  - intros (d & groups & [H|H] & F & G & E & N); [discriminate|]. exists d, groups. split; [split; assumption|]. split; [exact G|]. split; [exact E|]. rewrite N. lia.
  - intros (d & groups & [H F] & G & E & ->). exists d, groups. split; [auto|]. split; [exact F|]. split; [exact G|]. split; [exact E|]. lia.
Qed.
Definition edges_ok (t : str) : Prop := match t with [] => True | c :: _ => isspace c = false end /\ match rev t with [] => True | c :: _ => isspace c = false end.
Lemma strip_here b t b' : spaces b -> spaces b' -> edges_ok t -> strip (b ++ t ++ b') = t.
Proof.
  intros B B' [H1 H2]. unfold strip. destruct t as [|c t].
  - cbn [app]. rewrite <- (app_nil_r (b ++ b')). rewrite skip_here; [reflexivity| |exact I]. apply Forall_app. split; assumption.
  - rewrite skip_here; [|exact B|exact H1]. rewrite rev_app_distr. rewrite skip_here; [apply rev_involutive|apply Forall_rev, B'|exact H2].
Qed.
Lemma strip_cut s : exists b b', s = b ++ strip s ++ b' /\ spaces b /\ spaces b' /\ edges_ok (strip s).
Proof.
  unfold strip. destruct (skip_cut s) as (b & E & B & H). set (t := Regexp.skip_spaces s) in *. destruct (skip_cut (rev t)) as (b' & E' & B' & H'). set (u := Regexp.skip_spaces (rev t)) in *.
  exists b, (rev b'). assert (T : t = rev u ++ rev b') by (rewrite <- rev_app_distr, <- E', rev_involutive; reflexivity). split; [rewrite <- T; exact E|]. split; [exact B|]. split; [apply Forall_rev, B'|].
  split; [|rewrite rev_involutive; exact H']. destruct (rev u) as [|c v] eqn:R; [exact I|]. rewrite T in H. exact H.
Qed.
Lemma body_edges sign d groups : (sign = [] \/ sign = lit "+" \/ sign = lit "-") -> numeral d -> Forall numeral groups -> edges_ok (sign ++ body d groups).
Proof.
  intros S [N F] G. split.
  - destruct S as [-> | [-> | ->]]; [|reflexivity..]. destruct d as [|c d]; [congruence|]. cbn. apply digit_noblank. inversion F; assumption.
  - assert (L : exists u c, body d groups = u ++ [c] /\ digit c).
    { unfold body. destruct groups as [|g groups] using rev_ind.
      - cbn. rewrite app_nil_r. destruct d as [|c d] using rev_ind; [congruence|]. exists d, c. split; [reflexivity|]. apply Forall_app in F. destruct F as [_ F]. inversion F; assumption.
      - clear IHgroups. rewrite flat_map_app. cbn [flat_map]. rewrite app_nil_r. apply Forall_app in G. destruct G as [_ G]. inversion G as [|? ? [G1 G2] _]; subst. destruct g as [|c g] using rev_ind; [congruence|]. clear IHg.
        apply Forall_app in G2. destruct G2 as [_ G2]. inversion G2; subst. exists (d ++ flat_map (fun g => lit "_" ++ g) groups ++ lit "_" ++ g), c. rewrite <- !app_assoc. auto. }
    destruct L as (u & c & -> & D). rewrite app_assoc, rev_app_distr. cbn. apply digit_noblank, D.
Qed.
Lemma py_int_exact s n : py_int s = Ok n <-> int_text s n.
Proof.
  unfold int_text. split.
  - intros H. destruct (strip_cut s) as (b & b' & E & B & B' & _). unfold py_int in H. destruct (strip s) as [|c r]; [discriminate|].
    assert (HH : exists sign d groups, c :: r = sign ++ body d groups /\ numeral d /\ Forall numeral groups /\ ((sign = [] \/ sign = lit "+") /\ n = numeral_value (d ++ concat groups) \/ sign = lit "-" /\ n = (- numeral_value (d ++ concat groups))%Z)).
    { destruct (eqb_spec c (ch "+")) as [->|_]; [|destruct (eqb_spec c (ch "-")) as [->|_]].
      - destruct (int_digits false 0 r) as [m|] eqn:D; [|discriminate]. injection H as <-. apply int_digits_body in D. destruct D as (d & groups & N & G & -> & ->). exists (lit "+"), d, groups. split; [reflexivity|]. split; [exact N|]. split; [exact G|]. auto.
      - destruct (int_digits false 0 r) as [m|] eqn:D; [|discriminate]. injection H as <-. apply int_digits_body in D. destruct D as (d & groups & N & G & -> & ->). exists (lit "-"), d, groups. split; [reflexivity|]. split; [exact N|]. split; [exact G|]. auto.
      - destruct (int_digits false 0 (c :: r)) as [m|] eqn:D; [|discriminate]. injection H as <-. apply int_digits_body in D. destruct D as (d & groups & N & G & -> & ->). exists [], d, groups. split; [reflexivity|]. split; [exact N|]. split; [exact G|]. auto. }
    destruct HH as (sign & d & groups & X & N & G & V). exists b, sign, d, groups, b'. split; [rewrite E, X; unfold body; rewrite <- !app_assoc; reflexivity|]. auto.
  - intros (b & sign & d & groups & b' & -> & B & B' & N & G & V). assert (SG : sign = [] \/ sign = lit "+" \/ sign = lit "-") by (destruct V as [[[X | X] _]|[X _]]; auto).
    unfold py_int. assert (ST : strip (b ++ sign ++ body d groups ++ b') = sign ++ body d groups) by (rewrite (app_assoc sign); apply strip_here; [exact B|exact B'|apply body_edges; assumption]).
    match goal with |- context [strip ?x] => change x with (b ++ sign ++ body d groups ++ b') end. rewrite ST. assert (ID : int_digits false 0 (body d groups) = Some (numeral_value (d ++ concat groups))) by (apply int_digits_body; exists d, groups; auto).
    destruct V as [[[-> | ->] ->]|[-> ->]].
    + cbn [app]. destruct (body d groups) as [|c r] eqn:EB; [unfold body in EB; destruct N as [N _]; destruct d; [congruence|discriminate]|].
      assert (DC : digit c). { unfold body in EB. destruct N as [N F]. destruct d as [|x d]; [congruence|]. cbn in EB. injection EB as <- _. inversion F; assumption. }
      destruct (eqb_spec c (ch "+")) as [->|_]; [exfalso; apply (digit_not _ (ch "+") DC); reflexivity|]. destruct (eqb_spec c (ch "-")) as [->|_]; [exfalso; apply (digit_not _ (ch "-") DC); reflexivity|]. rewrite ID. reflexivity.
    + change (lit "+" ++ body d groups) with (ch "+" :: body d groups). cbv beta iota zeta. rewrite eqb_refl, ID. reflexivity.
    + change (lit "-" ++ body d groups) with (ch "-" :: body d groups). cbv beta iota zeta. destruct (eqb_spec (ch "-") (ch "+")) as [X|_]; [discriminate|]. rewrite eqb_refl, ID. reflexivity.
Qed.
Lemma py_int_raise s : (forall n, ~ int_text s n) -> py_int s = Raise ValueError.
Proof.
  intros N. destruct (py_int s) as [n|e] eqn:E; [apply py_int_exact in E; destruct (N n E)|]. revert E. unfold py_int. clear. destruct (match strip s with [] => None | _ => _ end); congruence.
Qed.

(** ** the fields *)
Definition unpercent (f : str) : str := filter (fun c => negb (N.eqb c (ch "%"))) f.
Lemma filter_percent f : filter (fun c => negb (eqb c (ch "%"))) f = unpercent f.
Proof. apply filter_ext. intros c. f_equal. apply eq_true_iff_eq. etransitivity; [apply (eqb_eq (A:=char))|symmetry; apply N.eqb_eq]. Qed.
Lemma ints_three f1 f2 f3 h s l : ints [f1; f2; f3] = Ok [h; s; l] <-> int_text (unpercent f1) h /\ int_text (unpercent f2) s /\ int_text (unpercent f3) l.
Proof.
  cbn [ints]. rewrite !filter_percent, <- !py_int_exact.
  destruct (py_int (unpercent f1)); cbn [rbind]; [|intuition discriminate]. destruct (py_int (unpercent f2)); cbn [rbind]; [|intuition discriminate]. destruct (py_int (unpercent f3)); cbn [rbind]; [|intuition discriminate].
  split; [intros [= -> -> ->]; auto|intros ([= ->] & [= ->] & [= ->]); reflexivity].
Qed.
Lemma ints_length fs : forall l, ints fs = Ok l -> List.length l = List.length fs.
Proof.
  induction fs as [|f fs IH]; intros l E; cbn [ints] in E; [injection E as <-; reflexivity|]. destruct (py_int _); [|discriminate]. cbn [rbind] in E. destruct (ints fs) as [ns|]; [|discriminate]. cbn in E. injection E as <-. cbn. f_equal. apply IH. reflexivity.
Qed.
Lemma ints_raise fs e : ints fs = Raise e -> e = ValueError.
Proof.
  induction fs as [|f fs IH]; cbn [ints]; [discriminate|]. destruct (py_int _) as [n|x] eqn:E; cbn [rbind].
  - destruct (ints fs) as [ns|x]; [discriminate|]. cbn. intros [= <-]. apply IH. reflexivity.
  - intros [= <-]. revert E. unfold py_int. destruct (match strip _ with [] => None | _ => _ end); congruence.
Qed.
Lemma split_first c s : forall f fs, split_on c s = f :: fs -> ~ In c f /\ (fs = [] /\ s = f \/ exists r, s = f ++ c :: r /\ split_on c r = fs).
Proof.
  induction s as [|x s IH]; intros f fs E; cbn [split_on] in E.
  - injection E as <- <-. split; [intros []|auto].
  - destruct (eqb_spec x c) as [->|N].
    + injection E as <- <-. split; [intros []|]. right. exists s. auto.
    + destruct (split_on c s) as [|g gs] eqn:G; [exfalso; clear -G; destruct s; cbn in G; [discriminate|]; destruct (eqb _ _); [discriminate|]; destruct (split_on c s); discriminate|].
      injection E as <- <-. destruct (IH g gs eq_refl) as [NI [[-> ->]|(r & -> & R)]]; (split; [intros [X|X]; [congruence|contradiction]|]); [auto|]. right. exists r. auto.
Qed.
Lemma split_three c s f1 f2 f3 : split_on c s = [f1; f2; f3] <-> s = f1 ++ [c] ++ f2 ++ [c] ++ f3 /\ ~ In c f1 /\ ~ In c f2 /\ ~ In c f3.
Proof.
  split.
  - intros E. apply split_first in E. destruct E as [N1 [[X _]|(r & -> & E)]]; [discriminate|]. apply split_first in E. destruct E as [N2 [[X _]|(r' & -> & E)]]; [discriminate|]. apply split_first in E. destruct E as [N3 [[_ ->]|(r'' & _ & E)]]; [auto|].
    exfalso. clear -E. destruct r''; cbn in E; [discriminate|]. destruct (eqb _ _); [discriminate|]. destruct (split_on c r''); discriminate.
  - intros (-> & N1 & N2 & N3). cbn [app]. rewrite split_on_cons, split_on_cons, split_on_last by assumption. reflexivity.
Qed.

(** ** the text between the parentheses *)
Lemma find_char_none c s : find_char c s = None <-> ~ In c s.
Proof.
  induction s as [|x s IH]; cbn [find_char]; [intuition|]. destruct (eqb_spec x c) as [->|N]; [split; [discriminate|intros H; destruct H; left; reflexivity]|].
  destruct (find_char c s); cbn; split; try discriminate; try (intros H [X|X]; [congruence|apply IH; auto]); try reflexivity. intros H. exfalso. assert (~ In c s) by (intros X; apply H; right; exact X). apply IH in H0. discriminate.
Qed.
Lemma find_char_some c s i : find_char c s = Some i -> exists u v, s = u ++ c :: v /\ ~ In c u /\ i = List.length u.
Proof.
  revert i. induction s as [|x s IH]; intros i E; cbn [find_char] in E; [discriminate|]. destruct (eqb_spec x c) as [->|N].
  - injection E as <-. exists [], s. auto.
  - destruct (find_char c s) as [j|]; [|discriminate]. injection E as <-. destruct (IH j eq_refl) as (u & v & -> & Nu & ->). exists (x :: u), v. split; [reflexivity|]. split; [intros [X|X]; [congruence|contradiction]|reflexivity].
Qed.
Lemma rfind_char_none c s : rfind_char c s = None <-> ~ In c s.
Proof. unfold rfind_char. rewrite (in_rev s). rewrite <- find_char_none. destruct (find_char c (rev s)); split; congruence. Qed.
Lemma rfind_char_some c s i : rfind_char c s = Some i -> exists u v, s = u ++ c :: v /\ ~ In c v /\ i = List.length u.
Proof.
  unfold rfind_char. destruct (find_char c (rev s)) as [j|] eqn:E; [|discriminate]. intros [= <-]. apply find_char_some in E. destruct E as (u & v & E & N & ->).
  assert (S : s = rev v ++ c :: rev u) by (rewrite <- (rev_involutive s), E, rev_app_distr; cbn; rewrite <- app_assoc; reflexivity).
  exists (rev v), (rev u). split; [exact S|]. split; [rewrite <- in_rev; exact N|]. rewrite S, app_length. cbn. rewrite !rev_length. lia.
Qed.
Definition inside (color : str) : str :=
  let a := match find_char (ch "(") color with Some j => S j | None => 0 end in
  let b := match rfind_char (ch ")") color with Some k => k | None => List.length color - 1 end in firstn (b - a) (skipn a color).
Lemma inside_eq u v : ~ In (ch "(") u -> inside (u ++ ch "(" :: v) = firstn (match rfind_char (ch ")") (u ++ ch "(" :: v) with Some k => k | None => List.length u + List.length v end - S (List.length u)) v.
Proof.
  intros N. unfold inside. rewrite find_char_here by exact N. replace (skipn (S (List.length u)) (u ++ ch "(" :: v)) with v.
  - f_equal. destruct (rfind_char _ _); [reflexivity|]. rewrite app_length. cbn. lia.
  - replace (u ++ ch "(" :: v) with ((u ++ [ch "("]) ++ v) by (rewrite <- app_assoc; reflexivity). replace (S (List.length u)) with (List.length (u ++ [ch "("])) by (rewrite app_length; cbn; lia). rewrite skipn_app, skipn_all, Nat.sub_diag. reflexivity.
Qed.
Lemma cut_unique {X : Type} (c : X) u v u' v' : u ++ c :: v = u' ++ c :: v' -> ~ In c u -> ~ In c u' -> u = u' /\ v = v'.
Proof.
  revert u'. induction u as [|x u IH]; intros u' E N N'; destruct u' as [|y u']; cbn in E.
  - injection E as <-. auto.
  - injection E as <- _. destruct N'. left. reflexivity.
  - injection E as -> _. destruct N. left. reflexivity.
  - injection E as <- E. destruct (IH u' E) as [-> ->]; [intros I; apply N; right; exact I|intros I; apply N'; right; exact I|auto].
Qed.
Lemma reads_inside color r hue saturation lightness : color = lit "hsl" ++ r ->
  (hsl_reads color hue saturation lightness <-> ints (split_on (ch ",") (inside color)) = Ok [hue; saturation; lightness]).
Proof.
  intros C. split.
  - intros (p & f1 & f2 & f3 & y & E & Np & Y & N1 & N2 & N3 & I1 & I2 & I3). set (t := f1 ++ lit "," ++ f2 ++ lit "," ++ f3) in *.
    assert (IN : inside color = t).
    { assert (E' : color = (lit "hsl" ++ p) ++ ch "(" :: t ++ y) by (rewrite E, <- app_assoc; reflexivity).
      assert (Nu : ~ In (ch "(") (lit "hsl" ++ p)) by (rewrite in_app_iff; intros [I|I]; [vm_compute in I; repeat (destruct I as [I|I]; [discriminate|]); destruct I|contradiction]).
      rewrite E', inside_eq by exact Nu. set (u := lit "hsl" ++ p) in *. destruct Y as [(y' & -> & Ny)|[Ly Nc]].
      - replace (u ++ ch "(" :: t ++ lit ")" ++ y') with ((u ++ ch "(" :: t) ++ ch ")" :: y') by (rewrite <- app_assoc; reflexivity). rewrite rfind_char_here by exact Ny. rewrite app_length. cbn [List.length].
        replace (List.length u + S (List.length t) - S (List.length u)) with (List.length t + 0) by lia. rewrite firstn_app_2. cbn. apply app_nil_r.
      - rewrite E' in Nc. apply rfind_char_none in Nc. rewrite Nc, app_length, Ly. replace (List.length u + (List.length t + 1) - S (List.length u)) with (List.length t + 0) by lia. rewrite firstn_app_2. cbn. apply app_nil_r. }
    rewrite IN. assert (SP : split_on (ch ",") t = [f1; f2; f3]) by (apply split_three; auto). rewrite SP. apply ints_three. auto.
  - intros E. pose proof (ints_length _ _ E) as L. destruct (split_on (ch ",") (inside color)) as [|f1 [|f2 [|f3 [|? ?]]]] eqn:SP; try discriminate. apply split_three in SP. destruct SP as (IN & N1 & N2 & N3). apply ints_three in E. destruct E as (I1 & I2 & I3).
    destruct (find_char (ch "(") color) as [j|] eqn:FJ.
    + apply find_char_some in FJ. destruct FJ as (u & v & EC & Nu & _). assert (HU : exists p, u = lit "hsl" ++ p).
      { rewrite C in EC. change (lit "hsl") with [ch "h"; ch "s"; ch "l"] in *. destruct u as [|a [|b [|c p]]]; cbn in EC; try (injection EC; intros; discriminate). injection EC as <- <- <- _. exists p. reflexivity. }
      destruct HU as (p & ->). rewrite EC in IN. rewrite inside_eq in IN by exact Nu. set (u := lit "hsl" ++ p) in *.
      assert (NE : f1 ++ [ch ","] ++ f2 ++ [ch ","] ++ f3 <> []) by (destruct f1; discriminate).
      destruct (rfind_char (ch ")") (u ++ ch "(" :: v)) as [k|] eqn:RK.
      * apply rfind_char_some in RK. destruct RK as (u' & y & EK & Ny & ->). destruct (le_lt_dec (List.length u') (List.length u)) as [LE|LT]; [replace (List.length u' - S (List.length u)) with 0 in IN by lia; exfalso; apply NE; rewrite <- IN; reflexivity|].
        assert (X : exists t, u' = u ++ ch "(" :: t /\ v = t ++ ch ")" :: y).
        { assert (U : u' = firstn (List.length u') (u ++ ch "(" :: v)) by (rewrite EK, firstn_app, Nat.sub_diag, firstn_all, app_nil_r; reflexivity). rewrite firstn_app, firstn_all2 in U by lia. destruct (List.length u' - List.length u) as [|m] eqn:M; [lia|]. cbn [firstn] in U.
          exists (firstn m v). split; [exact U|]. rewrite U in EK. rewrite <- app_assoc in EK. apply app_inv_head in EK. injection EK as EK. exact EK. }
        destruct X as (t & -> & ->). rewrite app_length in IN. cbn [List.length] in IN. replace (List.length u + S (List.length t) - S (List.length u)) with (List.length t + 0) in IN by lia. rewrite firstn_app_2 in IN. cbn [firstn] in IN. rewrite app_nil_r in IN.
        exists p, f1, f2, f3, (lit ")" ++ y). split; [rewrite EC; unfold u; rewrite IN; rewrite <- !app_assoc; reflexivity|]. split; [intros I; apply Nu; unfold u; apply in_or_app; auto|]. split; [left; exists y; auto|]. auto 9.
      * assert (LV : exists z, v = (f1 ++ [ch ","] ++ f2 ++ [ch ","] ++ f3) ++ [z]).
        { destruct v as [|z v] using rev_ind; [exfalso; apply NE; rewrite <- IN; apply firstn_nil|]. clear IHv. exists z. f_equal. rewrite <- IN. rewrite app_length. cbn [List.length]. replace (List.length u + (List.length v + 1) - S (List.length u)) with (List.length v + 0) by lia. rewrite firstn_app_2. cbn. rewrite app_nil_r. reflexivity. }
        destruct LV as (z & ->). exists p, f1, f2, f3, [z]. split; [rewrite EC; unfold u; rewrite <- !app_assoc; reflexivity|]. split; [intros I; apply Nu; unfold u; apply in_or_app; auto|]. split; [right; split; [reflexivity|rewrite EC; apply rfind_char_none; exact RK]|]. auto 9.
    + exfalso. assert (H : exists m, inside color = ch "h" :: m).
      { unfold inside. rewrite FJ. cbn [skipn]. rewrite Nat.sub_0_r. assert (K : exists k, match rfind_char (ch ")") color with Some k => k | None => List.length color - 1 end = S k).
        { destruct (rfind_char (ch ")") color) as [k|] eqn:RK; [|rewrite C; cbn; exists (S (List.length r)); lia]. apply rfind_char_some in RK. destruct RK as (u & y & EK & _ & ->). destruct u as [|a u]; [rewrite C in EK; discriminate|]. exists (List.length u). reflexivity. }
        destruct K as (k & ->). rewrite C. eexists. reflexivity. }
      destruct H as (m & H). rewrite H in IN. destruct f1 as [|a f1]; [discriminate|]. injection IN as <- _. revert I1. unfold unpercent. change (filter (fun c => negb (N.eqb c (ch "%"))) (ch "h" :: f1)) with (ch "h" :: unpercent f1).
      intros I1. apply py_int_exact in I1. unfold py_int in I1. destruct (strip (ch "h" :: unpercent f1)) as [|c q] eqn:ST; [discriminate|]. destruct (strip_cut (ch "h" :: unpercent f1)) as (b & b' & EB & B & _). rewrite ST in EB.
      destruct b as [|x b]; [|cbn in EB; injection EB as <- _; inversion B; discriminate]. cbn in EB. injection EB as <- _. cbn in I1. discriminate.
Qed.
Lemma html_inside show color r : color = lit "hsl" ++ r -> html_color_to_graphviz show color =
  rbind (ints (split_on (ch ",") (inside color))) (fun l => match l with
    | [hue; saturation; lightness] => let '(h, s, x) := normalize_color_tuple (inject_Z hue) (inject_Z saturation) (inject_Z lightness) in let '(h, s, v) := hsl_to_hsv h s x in Ok (join (lit ", ") (map show [h; s; v]))
    | _ => Raise ValueError end).
Proof. intros ->. reflexivity. Qed.
