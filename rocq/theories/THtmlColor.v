(** Theorem C85: html_color_to_graphviz. *)
From Coq Require Import String ZArith QArith.
Open Scope string_scope. Open Scope nat_scope. Open Scope list_scope.
From Verif Require Import Str Graphviz Misc MiscSpec MiscProofs HtmlColor HtmlColorSpec HtmlColorProofs Base BaseProofs.

(** C85. A color that does not start with "hsl" is returned unchanged. *)
Theorem C85_other_colors str_float color : (forall r, color <> lit "hsl" ++ r) -> html_color_to_graphviz str_float color = Ok color.
Proof.
  intros N. unfold html_color_to_graphviz. destruct (startswith (lit "hsl") color) eqn:E; [|reflexivity]. exfalso.
  assert (X : forall p s, startswith p s = true -> exists r, s = p ++ r).
  { induction p as [|x p IH]; intros s H; [exists s; reflexivity|]. destruct s as [|y s]; [discriminate|]. cbn [startswith] in H. destruct (eqb_spec x y) as [->|]; [|discriminate].
    destruct (IH s H) as [r ->]. exists r. reflexivity. }
  destruct (X _ _ E) as [r Hr]. apply (N r Hr).
Qed.
(** C85. The text of an HSL color is translated into the hue, saturation and value of the same color. *)
Theorem C85_hsl_partial str_float color hue saturation lightness :
  hsl_text color hue saturation lightness -> (0 <= saturation <= 100)%Z -> (0 <= lightness <= 100)%Z ->
  exists h s v, html_color_to_graphviz str_float color = Ok (join (lit ", ") [str_float h; str_float s; str_float v]) /\
    same_color (h, s, v) (inject_Z hue / 360, inject_Z saturation / 100, inject_Z lightness / 100)%Q.
Proof.
  intros H S L. rewrite (html_hsl str_float _ _ _ _ H).
  assert (R : forall z, (0 <= z <= 100)%Z -> (0 <= inject_Z z / 100 <= 1)%Q).
  { intros z B. split; [apply Qle_shift_div_l; [reflexivity|]; rewrite Qmult_0_l; change 0%Q with (inject_Z 0); rewrite <- Zle_Qle; lia|].
    apply Qle_shift_div_r; [reflexivity|]. rewrite Qmult_1_l. change 100%Q with (inject_Z 100). rewrite <- Zle_Qle. lia. }
  pose proof (hsl_same (inject_Z hue / 360) _ _ (R _ S) (R _ L)) as C. destruct (hsl_to_hsv _ _ _) as [[h s] v]. exists h, s, v. split; [reflexivity|exact C].
Qed.
(** C85. int() on a text, as it is used on every field. *)
Theorem C85_int s : (forall n, py_int s = Ok n <-> int_text s n) /\ ((forall n, ~ int_text s n) -> py_int s = Raise ValueError).
Proof. split; [intros n; apply py_int_exact|apply py_int_raise]. Qed.
(** C85. Every text that starts with "hsl": either three integers are read in it, and they are the color that is translated, or ValueError is raised. *)
Theorem C85_exact str_float color r : color = lit "hsl" ++ r ->
  (forall hue saturation lightness, hsl_reads color hue saturation lightness -> (0 <= saturation <= 100)%Z -> (0 <= lightness <= 100)%Z ->
    exists h s v, html_color_to_graphviz str_float color = Ok (join (lit ", ") [str_float h; str_float s; str_float v]) /\
      same_color (h, s, v) (inject_Z hue / 360, inject_Z saturation / 100, inject_Z lightness / 100)%Q) /\
  ((forall hue saturation lightness, ~ hsl_reads color hue saturation lightness) -> html_color_to_graphviz str_float color = Raise ValueError).
Proof.
  intros C. rewrite (html_inside _ _ _ C). split.
  - intros hue saturation lightness H S L. apply (reads_inside _ _ _ _ _ C) in H. rewrite H. cbn [rbind normalize_color_tuple].
    assert (R : forall z, (0 <= z <= 100)%Z -> (0 <= inject_Z z / 100 <= 1)%Q).
    { intros z B. split; [apply Qle_shift_div_l; [reflexivity|]; rewrite Qmult_0_l; change 0%Q with (inject_Z 0); rewrite <- Zle_Qle; lia|].
      apply Qle_shift_div_r; [reflexivity|]. rewrite Qmult_1_l. change 100%Q with (inject_Z 100). rewrite <- Zle_Qle. lia. }
    pose proof (hsl_same (inject_Z hue / 360) _ _ (R _ S) (R _ L)) as X. destruct (hsl_to_hsv _ _ _) as [[h s] v]. exists h, s, v. split; [reflexivity|exact X].
  - intros N. destruct (ints (split_on (ch ",") (inside color))) as [l|e] eqn:E; cbn [rbind]; [|rewrite (ints_raise _ _ E); reflexivity].
    destruct l as [|h [|s [|x [|? ?]]]]; try reflexivity. destruct (N h s x). apply (reads_inside _ _ _ _ _ C), E.
Qed.
(** Without the closing parenthesis the last digit is lost: black instead of gray. *)
Theorem C85_unclosed_refuted : exists color, color = lit "hsl(0, 0%, 5%" /\ hsl_reads color 0 0 5 /\ exists color', color' = lit "hsl(0, 0, 50" /\ hsl_reads color' 0 0 5.
Proof.
  eexists. split; [reflexivity|].
  assert (F : forall b d, Forall (fun c => isspace c = true) b -> numeral d -> int_text (b ++ d) (numeral_value d)).
  { intros b d B D. exists b, [], d, [], []. cbn. rewrite !app_nil_r. split; [reflexivity|]. split; [exact B|]. split; [constructor|]. split; [exact D|]. split; [constructor|]. left. auto. }
  assert (N0 : numeral (lit "0")) by (split; [discriminate|repeat constructor; cbn; tauto]). assert (N5 : numeral (lit "5")) by (split; [discriminate|repeat constructor; cbn; tauto]).
  assert (NI : forall c s, mem c s = false -> ~ In c s) by (intros c s M I; apply mem_spec in I; congruence).
  split; [|eexists; split; [reflexivity|]].
  - exists [], (lit "0"), (lit " 0%"), (lit " 5"), (lit "%"). split; [reflexivity|]. split; [intros []|]. split; [right; split; [reflexivity|apply NI; reflexivity]|]. split; [apply NI; reflexivity|]. split; [apply NI; reflexivity|]. split; [apply NI; reflexivity|].
    split; [apply (F []); [constructor|exact N0]|]. split; [apply (F (lit " ")); [repeat constructor|exact N0]|apply (F (lit " ")); [repeat constructor|exact N5]].
  - exists [], (lit "0"), (lit " 0"), (lit " 5"), (lit "0"). split; [reflexivity|]. split; [intros []|]. split; [right; split; [reflexivity|apply NI; reflexivity]|]. split; [apply NI; reflexivity|]. split; [apply NI; reflexivity|]. split; [apply NI; reflexivity|].
    split; [apply (F []); [constructor|exact N0]|]. split; [apply (F (lit " ")); [repeat constructor|exact N0]|apply (F (lit " ")); [repeat constructor|exact N5]].
Qed.
(** Missing in the partial theorem: the other forms of HSL colors in HTML (with an opacity, without commas, with decimals) raise ValueError. *)
Theorem C85_hsl_refuted : exists colors, colors = map lit ["hsla(173, 71%, 56%, 0.5)"; "hsl(173 71% 56%)"; "hsl(173.5, 71%, 56%)"; "hsl(173deg, 71%, 56%)"] /\
  forall color str_float, In color colors -> html_color_to_graphviz str_float color = Raise ValueError.
Proof. eexists. split; [reflexivity|]. intros color str_float I. cbn [map] in I. repeat (destruct I as [<-|I]; [vm_compute; reflexivity|]). destruct I. Qed.

Example ex_C85 : hsl_text (lit "hsl(173, 71%, 56%)") 173 71 56.
Proof.
  exists [], (lit "173"), (lit " 71%"), (lit " 56%"), []. split; [reflexivity|]. split; [intros []|]. split; [intros []|].
  assert (F : forall b d p n, Forall (fun c => isspace c = true) b -> numeral d -> numeral_value d = n -> (p = [] \/ p = lit "%") -> a_field (b ++ d ++ p ++ []) n).
  { intros b d p n Hb Hd Hn Hp. exists b, d, p, []. auto 9. }
  split; [|split].
  - apply (F [] (lit "173") []); [constructor|split; [discriminate|repeat constructor; cbn; tauto]|reflexivity|auto].
  - apply (F (lit " ") (lit "71") (lit "%")); [repeat constructor|split; [discriminate|repeat constructor; cbn; tauto]|reflexivity|auto].
  - apply (F (lit " ") (lit "56") (lit "%")); [repeat constructor|split; [discriminate|repeat constructor; cbn; tauto]|reflexivity|auto].
Qed.
(** with the rationals shown as numerator / denominator *)
Example ex_C85_value : html_color_to_graphviz (fun q => str_nat (Z.to_nat (Qnum (Qred q))) ++ lit "/" ++ str_nat (Pos.to_nat (Qden (Qred q)))) (lit "hsl(173, 71%, 56%)") =
  Ok (lit "173/360, 1562/2181, 2181/2500").
Proof. vm_compute. reflexivity. Qed.

Print Assumptions C85_other_colors.
Print Assumptions C85_int.
Print Assumptions C85_exact.
Print Assumptions C85_unclosed_refuted.
Print Assumptions C85_hsl_partial.
Print Assumptions C85_hsl_refuted.
Example ex_C85_int : py_int (lit " -1_000 ") = Ok (-1000)%Z /\ py_int (lit "+") = Raise ValueError /\ py_int (lit "1__0") = Raise ValueError.
Proof. vm_compute. auto. Qed.
