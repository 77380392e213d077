(** The operators of tokenizer_re, and the pieces they cut. *)
From Coq Require Import String.
From Verif Require Import Str Graph Automaton Nfa Thompson ShuntingYard Regexp SYProofs Catify CatifySpec Base BaseProofs.
Open Scope string_scope.
Open Scope nat_scope.
Open Scope list_scope.

Lemma lit_comma X : lit "," ++ X = ch "," :: X. Proof. reflexivity. Qed.
Lemma lit_lbrace X : lit "{" ++ X = ch "{" :: X. Proof. reflexivity. Qed.
Lemma lit_rbrace X : lit "}" ++ X = ch "}" :: X. Proof. reflexivity. Qed.
Lemma lit_lbracket X : lit "[" ++ X = ch "[" :: X. Proof. reflexivity. Qed.
Lemma lit_rbracket X : lit "]" ++ X = ch "]" :: X. Proof. reflexivity. Qed.
Lemma lit_backslash X : lit "\" ++ X = ch "\" :: X. Proof. reflexivity. Qed.
Definition starts (p : char -> bool) (s : str) : bool := match s with c :: _ => p c | [] => false end.
Lemma span_app p u v : (forall c, In c u -> p c = true) -> starts p v = false -> span p (u ++ v) = (u, v).
Proof.
  induction u as [|c u IH]; intros H S; cbn [app span].
  - destruct v as [|c v]; [reflexivity|]. cbn in S. cbn [span]. rewrite S. reflexivity.
  - rewrite (H c (or_introl eq_refl)), IH; [reflexivity| |exact S]. intros d I. apply H. right. exact I.
Qed.
Lemma span_spec p s : s = fst (span p s) ++ snd (span p s) /\ (forall c, In c (fst (span p s)) -> p c = true) /\ starts p (snd (span p s)) = false.
Proof.
  induction s as [|c s (E & H & S)]; [repeat split; intros c []|]. cbn [span]. destruct (p c) eqn:P.
  - destruct (span p s) as [u v]. cbn [fst snd app] in *. subst s. repeat split; [|exact S]. intros d [<-|I]; auto.
  - repeat split; [intros d []|exact P].
Qed.
Lemma space_not_digit c : isspace c = true -> isdigit c = false.
Proof.
  unfold isspace, isdigit. intros H. apply orb_true_iff in H. destruct (N.leb_spec 48 c), (N.leb_spec c 57); try reflexivity. exfalso.
  destruct H as [H|H].
  - apply mem_spec in H. cbn in H. intuition (subst c; discriminate || lia).
  - apply andb_true_iff in H. rewrite !N.leb_le in H. lia.
Qed.
Lemma starts_app p u v : (forall c, In c u -> p c = true) -> u <> [] -> starts p (u ++ v) = true.
Proof. destruct u as [|c u]; [congruence|]. intros H _. cbn. apply H. left. reflexivity. Qed.
Lemma starts_space_digit u v : spaces u -> starts isdigit v = false -> starts isdigit (u ++ v) = false.
Proof. destruct u as [|c u]; [auto|]. intros H _. cbn. apply space_not_digit, H. left. reflexivity. Qed.
Lemma skip_app u v : spaces u -> starts isspace v = false -> skip_spaces (u ++ v) = v.
Proof. intros H S. unfold skip_spaces. rewrite span_app by assumption. reflexivity. Qed.
Lemma digit_not_space c : isdigit c = true -> isspace c = false.
Proof. intros D. destruct (isspace c) eqn:S; [|reflexivity]. apply space_not_digit in S. congruence. Qed.
Lemma starts_digits u v : digits u -> starts isspace (u ++ v) = false.
Proof. intros [NE H]. destruct u as [|c u]; [congruence|]. cbn. apply digit_not_space, H. left. reflexivity. Qed.
Lemma digits_comma u v : digits u -> exists c r, u ++ v = c :: r /\ eqb c (ch ",") = false.
Proof.
  intros [NE H]. destruct u as [|c u]; [congruence|]. exists c, (u ++ v). split; [reflexivity|].
  destruct (eqb_spec c (ch ",")) as [->|]; [|reflexivity]. specialize (H _ (or_introl eq_refl)). discriminate.
Qed.

(** the end of a repetition, after the comma if any *)
Definition brace_end (s : str) : option str :=
  let '(_, s) := span isdigit (skip_spaces s) in
  match skip_spaces s with c :: s' => if eqb c (ch "}") then Some s' else None | [] => None end.
Lemma brace_end_digits sp d sp4 rest : spaces sp -> digits d -> spaces sp4 -> brace_end (sp ++ d ++ sp4 ++ ch "}" :: rest) = Some rest.
Proof.
  intros H1 H2 H3. unfold brace_end. rewrite skip_app by (apply H1 || apply starts_digits, H2).
  rewrite span_app; [|apply H2|apply starts_space_digit; [exact H3|reflexivity]].
  rewrite skip_app by (apply H3 || reflexivity). rewrite eqb_refl. reflexivity.
Qed.
Lemma brace_end_none sp4 rest : spaces sp4 -> brace_end (sp4 ++ ch "}" :: rest) = Some rest.
Proof. intros H. unfold brace_end. rewrite skip_app by (exact H || reflexivity). reflexivity. Qed.
Lemma match_braces_eq s : match_braces s = let '(d, s) := span isdigit (skip_spaces s) in
  match d with [] => None | _ :: _ => brace_end (match skip_spaces s with c :: s' => if eqb c (ch ",") then s' else c :: s' | [] => [] end) end.
Proof. reflexivity. Qed.

Lemma match_braces_complete sp1 d comma second sp4 rest : spaces sp1 -> digits d ->
  (comma = [] \/ exists sp2, spaces sp2 /\ comma = sp2 ++ lit ",") ->
  (second = [] \/ exists sp3 d', spaces sp3 /\ digits d' /\ second = sp3 ++ d') -> spaces sp4 ->
  match_braces (sp1 ++ d ++ comma ++ second ++ sp4 ++ ch "}" :: rest) = Some rest.
Proof.
  intros H1 Hd Hc Hs H4. rewrite match_braces_eq, skip_app by (apply H1 || apply starts_digits, Hd).
  assert (NE : exists d0 d1, d = d0 :: d1) by (destruct d as [|x y]; [destruct Hd; congruence|eauto]). destruct NE as (d0 & d1 & Ed).
  destruct Hc as [->|(sp2 & H2 & ->)].
  - destruct Hs as [->|(sp3 & d' & H3 & Hd' & ->)]; cbn [app].
    + rewrite span_app; [|apply Hd|apply starts_space_digit; [exact H4|reflexivity]]. rewrite Ed.
      rewrite skip_app by (exact H4 || reflexivity). replace (eqb (ch "}") (ch ",")) with false by reflexivity. apply (brace_end_none []). intros c [].
    + rewrite <- !app_assoc. destruct sp3 as [|b sp3].
      * cbn [app]. rewrite app_assoc, span_app; [|intros c I; apply in_app_iff in I; destruct I; [apply Hd|apply Hd']; assumption|apply starts_space_digit; [exact H4|reflexivity]].
        rewrite Ed. cbn [app]. rewrite skip_app by (exact H4 || reflexivity). replace (eqb (ch "}") (ch ",")) with false by reflexivity. apply (brace_end_none []). intros c [].
      * rewrite span_app; [|apply Hd|cbn; apply space_not_digit, H3; left; reflexivity]. rewrite Ed.
        rewrite skip_app by (exact H3 || apply starts_digits, Hd').
        destruct (digits_comma d' (sp4 ++ ch "}" :: rest) Hd') as (c & r & E & N). rewrite E, N, <- E.
        apply (brace_end_digits []); [intros x []|exact Hd'|exact H4].
  - rewrite <- !app_assoc. rewrite span_app; [|apply Hd|apply starts_space_digit; [exact H2|reflexivity]]. rewrite Ed.
    rewrite skip_app by (exact H2 || reflexivity). rewrite lit_comma, eqb_refl.
    destruct Hs as [->|(sp3 & d' & H3 & Hd' & ->)]; [apply (brace_end_none sp4), H4|]. rewrite <- !app_assoc. apply brace_end_digits; assumption.
Qed.
Lemma skip_spec s : exists sp, spaces sp /\ s = sp ++ skip_spaces s /\ starts isspace (skip_spaces s) = false.
Proof. destruct (span_spec isspace s) as (E & H & S). exists (fst (span isspace s)). repeat split; assumption. Qed.
Lemma match_braces_sound s rest : match_braces s = Some rest -> exists sp1 d comma second sp4, spaces sp1 /\ digits d /\
  (comma = [] \/ exists sp2, spaces sp2 /\ comma = sp2 ++ lit ",") /\
  (second = [] \/ exists sp3 d', spaces sp3 /\ digits d' /\ second = sp3 ++ d') /\ spaces sp4 /\
  s = sp1 ++ d ++ comma ++ second ++ sp4 ++ ch "}" :: rest.
Proof.
  rewrite match_braces_eq. destruct (skip_spec s) as (sp1 & H1 & E1 & _). destruct (span_spec isdigit (skip_spaces s)) as (E2 & Hd & _).
  destruct (span isdigit (skip_spaces s)) as [d s2]. cbn [fst snd] in *. destruct d as [|d0 d]; [discriminate|]. intros X.
  assert (Hd' : digits (d0 :: d)) by (split; [discriminate|exact Hd]).
  (* what follows the comma *)
  assert (BE : forall s, brace_end s = Some rest -> exists second sp4,
    (second = [] \/ exists sp3 d', spaces sp3 /\ digits d' /\ second = sp3 ++ d') /\ spaces sp4 /\ s = second ++ sp4 ++ ch "}" :: rest).
  { clear. intros s. unfold brace_end. destruct (skip_spec s) as (sp3 & H3 & E3 & _). destruct (span_spec isdigit (skip_spaces s)) as (E4 & Hd & _).
    destruct (span isdigit (skip_spaces s)) as [d s2]. cbn [fst snd] in *. destruct (skip_spec s2) as (sp4 & H4 & E5 & _).
    destruct (skip_spaces s2) as [|c r]; [discriminate|]. destruct (eqb_spec c (ch "}")) as [->|]; [|discriminate]. intros [= ->].
    destruct d as [|d0 d].
    - exists [], (sp3 ++ sp4). split; [auto|]. split; [intros c I; apply in_app_iff in I; destruct I; auto|].
      rewrite E3, E4, E5. cbn [app]. rewrite app_assoc. reflexivity.
    - exists (sp3 ++ d0 :: d), sp4. split; [right; exists sp3, (d0 :: d); repeat split; [exact H3|discriminate|exact Hd]|]. split; [exact H4|].
      rewrite E3, E4, E5. rewrite <- !app_assoc. reflexivity. }
  destruct (skip_spec s2) as (sp2 & H2 & E3 & _). destruct (skip_spaces s2) as [|c r] eqn:Es; [discriminate|].
  destruct (eqb_spec c (ch ",")) as [->|Nc].
  - apply BE in X. destruct X as (second & sp4 & Hs & H4 & ->). exists sp1, (d0 :: d), (sp2 ++ lit ","), second, sp4.
    split; [exact H1|]. split; [exact Hd'|]. split; [eauto|]. split; [exact Hs|]. split; [exact H4|].
    rewrite E1, E2, E3. rewrite <- !app_assoc. reflexivity.
  - apply BE in X. destruct X as (second & sp4 & Hs & H4 & E4). 
    destruct Hs as [->|(sp3 & d' & H3 & Hd2 & ->)].
    + exists sp1, (d0 :: d), [], [], (sp2 ++ sp4). split; [exact H1|]. split; [exact Hd'|]. split; [auto|]. split; [auto|].
      split; [intros b I; apply in_app_iff in I; destruct I; auto|]. rewrite E1, E2, E3, E4. cbn [app]. rewrite <- !app_assoc. reflexivity.
    + exists sp1, (d0 :: d), [], (sp2 ++ sp3 ++ d'), sp4. split; [exact H1|]. split; [exact Hd'|]. split; [auto|].
      split; [right; exists (sp2 ++ sp3), d'; split; [intros b I; apply in_app_iff in I; destruct I; auto|]; split; [exact Hd2|rewrite app_assoc; reflexivity]|].
      split; [exact H4|]. rewrite E1, E2, E3, E4. cbn [app]. rewrite <- !app_assoc. reflexivity.
Qed.

Lemma match_bracket_iff s n : match_bracket s = Some n <-> exists u rest, ~ In (ch "]") u /\ s = u ++ ch "]" :: rest /\ n = S (List.length u).
Proof.
  revert n. induction s as [|c s IH]; intros n; cbn [match_bracket].
  - split; [discriminate|]. intros (u & rest & _ & E & _). destruct u; discriminate.
  - destruct (eqb_spec c (ch "]")) as [->|N].
    + split.
      * intros [= <-]. exists [], s. repeat split. intros [].
      * intros (u & rest & NI & E & ->). destruct u as [|d u]; [reflexivity|]. injection E as <- _. destruct NI. left. reflexivity.
    + split.
      * destruct (match_bracket s) as [m|]; [|discriminate]. intros [= <-]. destruct (proj1 (IH m) eq_refl) as (u & rest & NI & -> & ->).
        exists (c :: u), rest. repeat split. intros [X|X]; [congruence|contradiction].
      * intros (u & rest & NI & E & ->). destruct u as [|d u]; [injection E as X _; congruence|]. injection E as <- ->.
        rewrite (proj2 (IH (S (List.length u)))); [reflexivity|]. exists u, rest. repeat split. intros X. apply NI. right. exact X.
Qed.

Lemma match_re_iff s n : match_re s = Some n <-> exists t rest, re_operator t /\ s = t ++ rest /\ List.length t = n.
Proof.
  destruct s as [|c s].
  { split; [discriminate|]. intros (t & rest & O & E & _). inversion O; subst; discriminate. }
  unfold match_re. split.
  - destruct (mem_reflect c (lit "*+?.|()")) as [I|NI].
    { intros [= <-]. exists [c], s. repeat split. constructor. exact I. }
    destruct (eqb_spec c (ch "{")) as [->|N1].
    { destruct (match_braces s) as [rest|] eqn:M; [|discriminate]. intros [= <-].
      destruct (match_braces_sound s rest M) as (sp1 & d & comma & second & sp4 & H1 & Hd & Hc & Hs & H4 & ->).
      exists (lit "{" ++ sp1 ++ d ++ comma ++ second ++ sp4 ++ lit "}"), rest. split; [constructor; assumption|].
      split; [rewrite lit_lbrace; cbn [app]; f_equal; rewrite <- !app_assoc, lit_rbrace; reflexivity|]. rewrite lit_lbrace. cbn [List.length]. rewrite !app_length. cbn [List.length]. change (List.length (lit "}")) with 1. destruct (List.length rest); lia. }
    destruct (eqb_spec c (ch "[")) as [->|N2].
    { destruct (match_bracket s) as [m|] eqn:M; [|discriminate]. intros [= <-].
      apply match_bracket_iff in M. destruct M as (u & rest & NI' & -> & ->).
      exists (lit "[" ++ u ++ lit "]"), rest. split; [constructor; exact NI'|]. split; [rewrite lit_lbracket; cbn [app]; f_equal; rewrite <- !app_assoc, lit_rbracket; reflexivity|].
      rewrite lit_lbracket. cbn [List.length]. rewrite app_length. change (List.length (lit "]")) with 1. lia. }
    destruct (eqb_spec c (ch "\")) as [->|N3]; [|discriminate]. destruct s as [|d s]; [discriminate|].
    destruct (mem_reflect d (lit "abdDfnrsStvwW*+?.|[](){}")) as [I|]; [|discriminate]. intros [= <-].
    exists (lit "\" ++ [d]), s. repeat split. constructor. exact I.
  - intros (t & rest & O & E & <-). destruct O as [d I|sp1 d comma second sp4 H1 Hd Hc Hs H4|u NI|d I].
    + injection E as <- ->. rewrite (proj2 (mem_spec _ _) I). reflexivity.
    + rewrite lit_lbrace in *. cbn [app] in E. injection E as -> ->. cbn [List.length]. replace (mem (ch "{") (lit "*+?.|()")) with false by reflexivity. rewrite eqb_refl.
      rewrite <- !app_assoc, lit_rbrace. rewrite match_braces_complete by assumption. f_equal. apply Nat.add_sub_eq_r. cbn [List.length]. rewrite !app_length. cbn [List.length]. change (List.length (lit "}")) with 1. lia.
    + rewrite lit_lbracket in *. cbn [app] in E. injection E as -> ->. cbn [List.length]. replace (mem (ch "[") (lit "*+?.|()")) with false by reflexivity.
      replace (eqb (ch "[") (ch "{")) with false by reflexivity. rewrite eqb_refl. rewrite <- app_assoc, lit_rbracket.
      rewrite (proj2 (match_bracket_iff _ (S (List.length u)))) by (exists u, rest; auto). rewrite app_length. cbn. rewrite Nat.add_1_r. reflexivity.
    + rewrite lit_backslash in *. cbn [app] in E. injection E as -> ->. cbn [List.length]. replace (mem (ch "\") (lit "*+?.|()")) with false by reflexivity.
      replace (eqb (ch "\") (ch "{")) with false by reflexivity. replace (eqb (ch "\") (ch "[")) with false by reflexivity. rewrite eqb_refl.
      rewrite (proj2 (mem_spec _ _) I). reflexivity.
Qed.
Lemma operator_nonempty t : re_operator t -> t <> [].
Proof. intros O. inversion O; discriminate. Qed.
Lemma match_re_operator t rest : re_operator t -> match_re (t ++ rest) = Some (List.length t).
Proof. intros O. apply match_re_iff. exists t, rest. auto. Qed.
Lemma match_re_none s : match_re s = None <-> forall t rest, re_operator t -> s <> t ++ rest.
Proof.
  split.
  - intros M t rest O ->. rewrite (match_re_operator t rest O) in M. discriminate.
  - intros H. destruct (match_re s) as [n|] eqn:M; [|reflexivity]. apply match_re_iff in M. destruct M as (t & rest & O & E & _). destruct (H t rest O E).
Qed.
Lemma app_inj_len {X} (a b c d : list X) : List.length a = List.length b -> a ++ c = b ++ d -> a = b /\ c = d.
Proof. revert b. induction a as [|x a IH]; intros [|y b] L E; try discriminate; [auto|]. injection L as L. injection E as -> E. destruct (IH b L E) as [-> ->]. auto. Qed.
Lemma operator_prefix t t' r r' : re_operator t -> re_operator t' -> t ++ r = t' ++ r' -> t = t' /\ r = r'.
Proof.
  intros O O' E. pose proof (match_re_operator t r O) as M. rewrite E, (match_re_operator t' r' O') in M. injection M as L.
  apply app_inj_len in E; [exact E|congruence].
Qed.

Lemma lexing_exists s : exists l, lexing s l.
Proof.
  remember (List.length s) as n eqn:En. revert s En. induction n as [n IH] using lt_wf_ind. intros s ->.
  destruct s as [|c s]; [exists []; constructor|]. destruct (match_re (c :: s)) as [k|] eqn:M.
  - apply match_re_iff in M. destruct M as (t & rest & O & E & _). rewrite E. pose proof (operator_nonempty t O).
    destruct (IH (List.length rest)) with (s := rest) as (l & L); [rewrite E, app_length; destruct t; [congruence|cbn; lia]|reflexivity|].
    exists (Operator t :: l). constructor; assumption.
  - destruct (IH (List.length s)) with (s := s) as (l & L); [cbn; lia|reflexivity|].
    exists (Literal c :: l). constructor; [|exact L]. apply match_re_none. exact M.
Qed.
Lemma lexing_unique s l : lexing s l -> forall l', lexing s l' -> l = l'.
Proof.
  induction 1 as [|t s l O L IH|c s l N L IH]; intros l' L'.
  - inversion L' as [|t s' l2 O2 L2 E|]; [reflexivity|]. apply app_eq_nil in E. destruct (operator_nonempty _ O2). apply E.
  - inversion L' as [E|t2 s2 l2 O2 L2 E|c s2 l2 N2 L2 E].
    + symmetry in E. apply app_eq_nil in E. destruct (operator_nonempty _ O). apply E.
    + symmetry in E. destruct (operator_prefix _ _ _ _ O O2 E) as [<- <-]. f_equal. apply IH. exact L2.
    + destruct (N2 t s O). exact E.
  - inversion L' as [|t2 s2 l2 O2 L2 E|c2 s2 l2 N2 L2 E]; subst.
    + destruct (N t2 s2 O2). auto.
    + f_equal. apply IH. exact L2.
Qed.
Lemma lexing_text s l : lexing s l -> concat (map text l) = s.
Proof. induction 1 as [|t s l O L IH|c s l N L IH]; cbn [map concat text app]; rewrite ?IH; reflexivity. Qed.

(** ** The visitor *)
Definition cat_segs (cat : option str) (l : list (bool * str)) (st : list str * bool) : list str * bool :=
  fold_left (fun (st : list str * bool) (e : bool * str) => if fst e then on_matched cat st (snd e) else on_unmatched cat st (snd e)) l st.
Lemma catify_eq s cat l : segs match_re [] s l -> catify s cat = fst (cat_segs cat l ([], false)).
Proof.
  intros S. apply segs_finditer in S. rewrite <- S. unfold catify, cat_segs. clear S. apply (f_equal fst). generalize (@nil str, false) as st.
  induction (tokenize (finditer match_re s) s) as [|e es IH]; intros st; [reflexivity|]. cbn [fold_left map]. rewrite IH. destruct e; reflexivity.
Qed.
Fixpoint pieces_segs (pending : str) (l : list piece) : list (bool * str) :=
  match l with
  | [] => flushp pending
  | Literal c :: l' => pieces_segs (pending ++ [c]) l'
  | Operator t :: l' => flushp pending ++ (true, t) :: pieces_segs [] l'
  end.
Lemma lexing_segs s l : lexing s l -> forall pending, segs match_re pending s (pieces_segs pending l).
Proof.
  induction 1 as [|t s l O L IH|c s l N L IH]; intros pending; cbn [pieces_segs].
  - constructor.
  - apply segs_matched; [apply operator_nonempty, O|apply match_re_operator, O|apply IH].
  - apply segs_unmatched; [apply match_re_none, N|apply IH].
Qed.

(** with an operator of concatenation: the visitor in the state (expression, needs) *)
Definition sep (cat : str) (needs : bool) (p : piece) : list str :=
  if needs && match p with Literal _ => true | Operator t => match t with d :: _ => mem d (lit "[(\") | [] => false end end then [cat] else [].
Definition needs_after (p : piece) : bool := match p with Literal _ => true | Operator t => negb (mem t [lit "("; lit "|"]) end.
Fixpoint tokens_of (cat : str) (needs : bool) (l : list piece) : list str :=
  match l with [] => [] | p :: l' => sep cat needs p ++ text p :: tokens_of cat (needs_after p) l' end.
Lemma unmatched_tokens cat u : forall l ex needs, on_unmatched (Some cat) (ex, needs) u =
  (ex ++ tokens_of cat needs (map Literal u), match u with [] => needs | _ => true end) /\
  tokens_of cat needs (map Literal u ++ l) = tokens_of cat needs (map Literal u) ++ tokens_of cat (match u with [] => needs | _ => true end) l.
Proof.
  induction u as [|a u IH]; intros l ex needs.
  - split; [cbn; rewrite app_nil_r; reflexivity|reflexivity].
  - unfold on_unmatched. cbn [fold_left map tokens_of app needs_after]. split.
    + destruct (IH l ((if needs then ex ++ [cat] else ex) ++ [[a]]) true) as [E _]. unfold on_unmatched in E. rewrite E. f_equal.
      * unfold sep. rewrite andb_true_r. destruct needs; cbn [app text]; rewrite <- !app_assoc; reflexivity.
      * destruct u; reflexivity.
    + destruct (IH l [] true) as [_ E]. rewrite E. rewrite <- app_assoc. cbn [app]. destruct u; reflexivity.
Qed.
Lemma cat_flush cat pending st : cat_segs (Some cat) (flushp pending) st = on_unmatched (Some cat) st pending.
Proof. destruct pending; reflexivity. Qed.
Lemma cat_segs_app cat l l' st : cat_segs cat (l ++ l') st = cat_segs cat l' (cat_segs cat l st).
Proof. apply fold_left_app. Qed.
Lemma cat_segs_op cat t l st : cat_segs cat ((true, t) :: l) st = cat_segs cat l (on_matched cat st t).
Proof. reflexivity. Qed.
Lemma cat_segs_tokens cat l : forall pending ex needs,
  fst (cat_segs (Some cat) (pieces_segs pending l) (ex, needs)) = ex ++ tokens_of cat needs (map Literal pending ++ l).
Proof.
  induction l as [|[c|t] l IH]; intros pending ex needs; cbn [pieces_segs].
  - rewrite cat_flush. destruct (unmatched_tokens cat pending [] ex needs) as [-> _]. rewrite app_nil_r. reflexivity.
  - rewrite IH, map_app, <- app_assoc. reflexivity.
  - rewrite cat_segs_app, cat_flush. destruct (unmatched_tokens cat pending (Operator t :: l) ex needs) as [-> ->].
    set (n := match pending with [] => needs | _ => true end). rewrite cat_segs_op. cbn [on_matched tokens_of text].
    rewrite IH. cbn [map app]. unfold sep, needs_after. destruct (n && _); cbn [app]; rewrite <- !app_assoc; reflexivity.
Qed.

Definition piece_ok (p : piece) : Prop := match p with Literal _ => True | Operator t => re_operator t end.
Lemma lexing_ok s l : lexing s l -> Forall piece_ok l.
Proof. induction 1; constructor; auto. exact I. Qed.
Lemma needs_after_iff p : needs_after p = true <-> ends_operand p.
Proof.
  destruct p as [c|t]; cbn [needs_after]; unfold ends_operand; [split; [split; discriminate|reflexivity]|].
  rewrite negb_true_iff. destruct (mem_reflect t [lit "("; lit "|"]) as [I|N].
  - split; [discriminate|]. intros [A B]. destruct I as [<-|[<-|[]]]; congruence.
  - split; [|reflexivity]. intros _. split; intros [= ->]; apply N; cbn; auto.
Qed.
Lemma sep_iff cat needs p : sep cat needs p = [cat] /\ needs = true /\ begins_operand p \/ sep cat needs p = [] /\ ~ (needs = true /\ begins_operand p).
Proof.
  unfold sep. destruct needs; [|right; split; [reflexivity|intros [X _]; discriminate]]. cbn [andb]. destruct p as [c|t]; [left; cbn; auto|].
  destruct t as [|d t]; [right; split; [reflexivity|]; intros (_ & u & [X|[X|X]]); discriminate|].
  destruct (mem_reflect d (lit "[(\")) as [I|N].
  - left. split; [reflexivity|]. split; [reflexivity|]. exists t. destruct I as [<-|[<-|[<-|[]]]]; auto.
  - right. split; [reflexivity|]. intros (_ & u & X). apply N. destruct X as [X|[X|X]]; injection X as -> _; cbn; auto.
Qed.
Lemma tokens_with_cat cat p l : with_cat cat (p :: l) (text p :: tokens_of cat (needs_after p) l).
Proof.
  revert p. induction l as [|q l IH]; intros p; [constructor|]. cbn [tokens_of].
  destruct (sep_iff cat (needs_after p) q) as [(-> & N & B)|(-> & N)]; cbn [app].
  - apply with_cat_joined; [apply needs_after_iff, N|exact B|apply IH].
  - apply with_cat_apart; [rewrite <- needs_after_iff; exact N|apply IH].
Qed.

(** without *)
Lemma none_segs l : forall st, fst (cat_segs None l st) = fst st ++ map snd l.
Proof.
  induction l as [|[b u] l IH]; intros [ex n]; [cbn; rewrite app_nil_r; reflexivity|]. unfold cat_segs in *. cbn [fold_left fst snd map].
  destruct b; rewrite IH; cbn [on_matched on_unmatched fst]; rewrite <- app_assoc; reflexivity.
Qed.
Lemma pieces_grouped l : forall pending, grouped (map Literal pending ++ l) (map snd (pieces_segs pending l)).
Proof.
  induction l as [|[c|t] l IH]; intros pending; cbn [pieces_segs].
  - destruct pending as [|a u]; [constructor|]. cbn [flushp map snd]. apply (grouped_literals (a :: u)); [discriminate|discriminate|constructor].
  - specialize (IH (pending ++ [c])). rewrite map_app, <- app_assoc in IH. exact IH.
  - specialize (IH []). cbn [map app] in IH. rewrite map_app. cbn [map snd].
    destruct pending as [|a u]; cbn [flushp map app snd]; [constructor; exact IH|].
    apply (grouped_literals (a :: u)); [discriminate|discriminate|]. constructor. exact IH.
Qed.

Lemma tokenizer_catify s : tokenizer_re s = catify s (Some (lit ".")).
Proof.
  unfold tokenizer_re, catify. apply (f_equal fst). generalize (@nil str, false) as st.
  induction (tokenize (finditer match_re s) s) as [|e es IH]; intros st; [reflexivity|]. cbn [fold_left]. rewrite IH. f_equal.
  destruct e as [u i j|m i j]; [|destruct st; reflexivity]. cbn [catify_event on_unmatched]. clear. revert st.
  induction u as [|a u IH]; intros st; [reflexivity|]. cbn [fold_left]. rewrite IH. f_equal. destruct st; reflexivity.
Qed.
