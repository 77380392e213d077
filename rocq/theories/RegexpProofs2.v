(** Lemmas on the tokenizer of regular expressions and on its trees. *)
From Coq Require Import String.
From Verif Require Import Str BaseProofs ThompsonSpec ShuntingYard SYSpec SYProofs Regexp RegexpSpec RegexpProofs.
Open Scope string_scope.
Open Scope nat_scope.
Open Scope list_scope.
#[local] Arguments dkeys : simpl never.

(** ** Numbers and bounds *)
Lemma span_app (p : char -> bool) u c v : Forall (fun x => p x = true) u -> p c = false -> span p (u ++ c :: v) = (u, c :: v).
Proof. intros F Hc. induction F as [|x u Hx F IH]; cbn; [rewrite Hc; reflexivity|]. rewrite Hx, IH. reflexivity. Qed.
Lemma digit_isdigit c : digit c -> isdigit c = true.
Proof. unfold digit, between, isdigit. intros (X & Y). apply N.leb_le in X, Y. rewrite X, Y. reflexivity. Qed.
Lemma digit_notspace c : digit c -> isspace c = false.
Proof. intros (X & Y). unfold isspace. apply orb_false_iff. split; [apply mem_false; cbn; lia|]. apply andb_false_iff. rewrite !N.leb_gt. lia. Qed.
Lemma skip_digit c s : digit c -> skip_spaces (c :: s) = c :: s.
Proof. intros D. unfold skip_spaces. cbn [span]. rewrite (digit_notspace c D). reflexivity. Qed.
Lemma span_number ds c v : is_number ds -> isdigit c = false -> span isdigit (skip_spaces (ds ++ c :: v)) = (ds, c :: v).
Proof.
  intros (NE & F) Hc. destruct ds as [|d ds]; [destruct (NE eq_refl)|]. cbn [app]. rewrite skip_digit by (apply Forall_cons_iff in F; apply F).
  apply (span_app isdigit (d :: ds)); [|exact Hc]. apply (Forall_impl (P := digit)); [exact digit_isdigit|exact F].
Qed.
Lemma number_cons ds : is_number ds -> exists d ds', ds = d :: ds' /\ digit d.
Proof. intros (NE & F). destruct ds as [|d ds]; [destruct (NE eq_refl)|]. exists d, ds. apply Forall_cons_iff in F. split; [reflexivity|apply F]. Qed.

Lemma int_decimal ds : int_of ds = decimal ds.
Proof.
  unfold int_of, decimal. rewrite <- (fold_left_rev_right (fun c n => 10 * n + N.to_nat (c - 48)) ds 0).
  assert (X : forall l : str, fold_right (fun c n => 10 * n + N.to_nat (c - 48)) 0 l = decimal_rev l).
  { induction l as [|c l IH]; cbn [fold_right decimal_rev]; [reflexivity|]. rewrite IH. lia. }
  apply X.
Qed.

Lemma match_braces_text b rest : bounds_ok b -> match_braces (tl (bounds_text b) ++ rest) = Some rest.
Proof.
  destruct b as [ds|ds|ds ds']; cbn [bounds_ok bounds_text]; intros OK.
  - change (tl (lit "{" ++ ds ++ lit "}")) with (ds ++ lit "}"). rewrite <- app_assoc. unfold match_braces.
    change (lit "}" ++ rest) with (ch "}" :: rest). rewrite span_number by (assumption || reflexivity). destruct (number_cons ds OK) as (d & ds0 & -> & _). reflexivity.
  - change (tl (lit "{" ++ ds ++ lit ",}")) with (ds ++ lit ",}"). rewrite <- app_assoc. unfold match_braces.
    change (lit ",}" ++ rest) with (ch "," :: ch "}" :: rest). rewrite span_number by (assumption || reflexivity). destruct (number_cons ds OK) as (d & ds0 & -> & _). reflexivity.
  - destruct OK as (O1 & O2 & _). change (tl (lit "{" ++ ds ++ lit "," ++ ds' ++ lit "}")) with (ds ++ lit "," ++ ds' ++ lit "}"). rewrite <- !app_assoc. unfold match_braces.
    change (lit "," ++ ds' ++ lit "}" ++ rest) with (ch "," :: ds' ++ ch "}" :: rest). rewrite span_number by (assumption || reflexivity). destruct (number_cons ds O1) as (d & ds0 & -> & _).
    change (skip_spaces (ch "," :: ds' ++ ch "}" :: rest)) with (ch "," :: ds' ++ ch "}" :: rest). cbv beta iota zeta; rewrite eqb_refl; cbv beta iota zeta; rewrite span_number by (assumption || reflexivity). reflexivity.
Qed.
Lemma parse_repetition_text b : bounds_ok b -> parse_repetition (bounds_text b) = Ok (bmin b, bmax b).
Proof.
  destruct b as [ds|ds|ds ds']; cbn [bounds_ok bounds_text bmin bmax]; intros OK.
  - change (lit "{" ++ ds ++ lit "}") with (ch "{" :: ds ++ ch "}" :: []). unfold parse_repetition. cbv beta iota zeta; rewrite eqb_refl; cbv beta iota zeta; rewrite span_number by (assumption || reflexivity).
    rewrite <- int_decimal. destruct (number_cons ds OK) as (d & ds0 & -> & _). reflexivity.
  - change (lit "{" ++ ds ++ lit ",}") with (ch "{" :: ds ++ ch "," :: ch "}" :: []). unfold parse_repetition. cbv beta iota zeta; rewrite eqb_refl; cbv beta iota zeta; rewrite span_number by (assumption || reflexivity).
    rewrite <- int_decimal. reflexivity.
  - destruct OK as (O1 & O2 & Le). change (lit "{" ++ ds ++ lit "," ++ ds' ++ lit "}") with (ch "{" :: ds ++ ch "," :: ds' ++ ch "}" :: []). unfold parse_repetition. cbv beta iota zeta; rewrite eqb_refl; cbv beta iota zeta; rewrite span_number by (assumption || reflexivity).
    change (skip_spaces (ch "," :: ds' ++ [ch "}"])) with (ch "," :: ds' ++ [ch "}"]). cbv beta iota zeta; replace (eqb (ch ",") (ch "}")) with false by reflexivity. cbv beta iota zeta; rewrite eqb_refl; cbv beta iota zeta; rewrite span_number by (assumption || reflexivity).
    change (skip_spaces [ch "}"]) with [ch "}"]. cbv beta iota zeta. rewrite eqb_refl. rewrite <- !int_decimal in *. destruct (number_cons ds' O2) as (d & ds0 & E & _).
    rewrite (proj2 (Nat.leb_le _ _) Le). rewrite E. reflexivity.
Qed.

(** ** Tokens *)
Definition cat_matched (s : list str * bool) (m : str) : list str * bool := catify_event s (OnMatched m 0 0).
Definition cat_seg (s : list str * bool) (e : bool * str) : list str * bool :=
  if fst e then cat_matched s (snd e) else fold_left cat_unmatched (snd e) s.
Lemma catify_segs l s : fold_left catify_event l s = fold_left cat_seg (map erase l) s.
Proof. revert s. induction l as [|e l IH]; intros s; cbn [fold_left map]; [reflexivity|]. rewrite IH. f_equal. destruct e; reflexivity. Qed.
(** [lexes s st st']: reading [s] leads the visitor from [st] to [st'] *)
Definition lexes (s : str) (st st' : list str * bool) : Prop := exists l, segs match_re [] s l /\ fold_left cat_seg l st = st'.
Lemma cat_flushp p st : fold_left cat_seg (flushp p) st = fold_left cat_unmatched p st.
Proof. destruct p; reflexivity. Qed.
Lemma segs_move p0 s l' : segs match_re p0 s l' -> forall p, exists l, segs match_re (p ++ p0) s l /\ forall st, fold_left cat_seg l st = fold_left cat_seg l' (fold_left cat_unmatched p st).
Proof.
  induction 1 as [p0|p0 c r l M _ IH|p0 m r l NE M X IH]; intros p.
  - exists (flushp (p ++ p0)). split; [constructor|]. intros st. rewrite !cat_flushp, fold_left_app. reflexivity.
  - destruct (IH p) as (l2 & S2 & H2). exists l2. split; [|exact H2]. constructor; [exact M|]. rewrite <- app_assoc. exact S2.
  - exists (flushp (p ++ p0) ++ (true, m) :: l). split; [constructor; assumption|]. intros st. rewrite !fold_left_app, !cat_flushp, fold_left_app. reflexivity.
Qed.
Lemma lexes_end st : lexes [] st st.
Proof. exists []. split; [apply (segs_end match_re [])|reflexivity]. Qed.
Lemma lexes_char c r st st' : match_re (c :: r) = None -> lexes r (cat_unmatched st c) st' -> lexes (c :: r) st st'.
Proof.
  intros M (l & S & H). destruct (segs_move _ _ _ S [c]) as (l2 & S2 & H2). exists l2. split; [|rewrite H2; exact H]. constructor; [exact M|exact S2].
Qed.
Lemma lexes_token m r st st' : m <> [] -> match_re (m ++ r) = Some (List.length m) -> lexes r (cat_matched st m) st' -> lexes (m ++ r) st st'.
Proof. intros NE M (l & S & H). exists ((true, m) :: l). split; [|exact H]. exact (segs_matched match_re [] m r l NE M S). Qed.
Lemma lexes_tokenizer s st' : lexes s ([], false) st' -> tokenizer_re s = fst st'.
Proof. intros (l & S & H). unfold tokenizer_re. rewrite catify_segs, (segs_finditer _ _ _ S), H. reflexivity. Qed.

(** the token tree of an expression *)
Notation rtree := (tree (T := str)).
Fixpoint tree_re (r : rexp) : rtree :=
  match r with
  | Chr c => Leaf [c] | Cls neg l => Leaf (class_text neg l) | Esc c => Leaf [ch "\"; c]
  | Cat a b => Bin (tree_re a) (lit ".") (tree_re b) | Alt a b => Bin (tree_re a) (lit "|") (tree_re b)
  | Star x => Post (tree_re x) (lit "*") | Plus x => Post (tree_re x) (lit "+") | Opt x => Post (tree_re x) (lit "?")
  | Rep x b => Suffix (tree_re x) (bounds_text b) | Grp x => Par (tree_re x)
  end.
Notation infx := (infix (lit "(") (lit ")")).
Definition dot (prev : bool) : list str := if prev then [lit "."] else [].

Lemma match_op c s : In c (lit "*+?.|()") -> match_re (c :: s) = Some 1.
Proof. intros I. unfold match_re. rewrite (proj2 (mem_spec _ _) I). reflexivity. Qed.
Lemma match_bracket_text u rest : ~ In (ch "]") u -> match_bracket (u ++ ch "]" :: rest) = Some (S (List.length u)).
Proof.
  induction u as [|c u IH]; intros N; cbn [app match_bracket List.length].
  - rewrite eqb_refl. reflexivity.
  - rewrite (proj2 (eqb_neq c (ch "]"))) by (intros ->; apply N; left; reflexivity). rewrite IH by (intros I; apply N; right; exact I). reflexivity.
Qed.
Lemma match_class neg l rest : ~ In (ch "]") (items_text l) -> match_re (class_text neg l ++ rest) = Some (List.length (class_text neg l)).
Proof.
  intros N. unfold class_text. rewrite <- !app_assoc. change (lit "[" ++ ?x) with (ch "[" :: x). unfold match_re.
  replace (mem (ch "[") (lit "*+?.|()")) with false by reflexivity. replace (eqb (ch "[") (ch "{")) with false by reflexivity. rewrite eqb_refl.
  change (lit "]" ++ rest) with (ch "]" :: rest). rewrite app_assoc, match_bracket_text.
  - f_equal. cbn [List.length]. rewrite !app_length. cbn [List.length lit map list_ascii_of_string]. lia.
  - intros I. apply in_app_iff in I. destruct I as [I|I]; [destruct neg; cbn in I; [destruct I as [I|[]]; discriminate|destruct I]|destruct (N I)].
Qed.
Lemma match_bounds b rest : bounds_ok b -> match_re (bounds_text b ++ rest) = Some (List.length (bounds_text b)).
Proof.
  intros OK. pose proof (match_braces_text b rest OK) as M.
  assert (E : bounds_text b = ch "{" :: tl (bounds_text b)) by (destruct b; reflexivity). rewrite E. cbn [app]. unfold match_re.
  replace (mem (ch "{") (lit "*+?.|()")) with false by reflexivity. rewrite eqb_refl, M. f_equal. cbn [List.length]. rewrite app_length. lia.
Qed.
Lemma match_escape c rest : In c escapable -> match_re (ch "\" :: c :: rest) = Some 2.
Proof.
  intros I. unfold match_re. replace (mem (ch "\") (lit "*+?.|()")) with false by reflexivity. replace (eqb (ch "\") (ch "{")) with false by reflexivity.
  replace (eqb (ch "\") (ch "[")) with false by reflexivity. rewrite eqb_refl. rewrite (proj2 (mem_spec _ _) I). reflexivity.
Qed.
Lemma match_plain c s : ~ In c (lit "*+?.|(){[\") -> match_re (c :: s) = None.
Proof.
  intros N. unfold match_re. assert (N1 : mem c (lit "*+?.|()") = false) by (apply mem_false; intros I; apply N; revert I; cbv; tauto). rewrite N1.
  rewrite !(fun d => proj2 (eqb_neq c d)); [reflexivity|..]; intros ->; apply N; cbv; tauto.
Qed.

Lemma cm_star ex : cat_matched (ex, true) (lit "*") = (ex ++ [lit "*"], true). Proof. reflexivity. Qed.
Lemma cm_plus ex : cat_matched (ex, true) (lit "+") = (ex ++ [lit "+"], true). Proof. reflexivity. Qed.
Lemma cm_opt ex : cat_matched (ex, true) (lit "?") = (ex ++ [lit "?"], true). Proof. reflexivity. Qed.
Lemma cm_bar ex : cat_matched (ex, true) (lit "|") = (ex ++ [lit "|"], false). Proof. reflexivity. Qed.
Lemma cm_rpar ex : cat_matched (ex, true) (lit ")") = (ex ++ [lit ")"], true). Proof. reflexivity. Qed.
Lemma cm_lpar ex prev : cat_matched (ex, prev) (lit "(") = ((ex ++ dot prev) ++ [lit "("], false). Proof. destruct prev; [reflexivity|]. unfold dot. rewrite app_nil_r. reflexivity. Qed.
Lemma cm_brace ex s : cat_matched (ex, true) (ch "{" :: s) = (ex ++ [ch "{" :: s], true). Proof. reflexivity. Qed.
Lemma cm_class ex prev d s : cat_matched (ex, prev) (ch "[" :: d :: s) = (ex ++ dot prev ++ [ch "[" :: d :: s], true). Proof. destruct prev; [|reflexivity]. cbn [dot]. rewrite app_assoc. reflexivity. Qed.
Lemma cm_esc ex prev d s : cat_matched (ex, prev) (ch "\" :: d :: s) = (ex ++ dot prev ++ [ch "\" :: d :: s], true). Proof. destruct prev; [|reflexivity]. cbn [dot]. rewrite app_assoc. reflexivity. Qed.
Lemma class_text_long neg l : exists d s, class_text neg l = ch "[" :: d :: s.
Proof. unfold class_text. destruct neg; [eexists; eexists; reflexivity|]. destruct (text_end l) as (b & s & E). exists b, s. cbn [app lit map list_ascii_of_string]. rewrite <- E. reflexivity. Qed.
Lemma bounds_text_long b : exists d s, bounds_text b = ch "{" :: d :: s.
Proof. destruct b as [ds|ds|ds ds']; destruct ds; eexists; eexists; reflexivity. Qed.

Lemma lexes_show alphabet r : well_formed alphabet r -> forall rest ex prev st', lexes rest (ex ++ dot prev ++ infx (tree_re r), true) st' -> lexes (show r ++ rest) (ex, prev) st'.
Proof.
  induction r as [c|neg l|c|a IHa b IHb|a IHa b IHb|x IH|x IH|x IH|x IH b|x IH]; intros W rest ex prev st' X; cbn [show tree_re infix well_formed] in *.
  - apply lexes_char; [apply match_plain, W|]. cbn [cat_unmatched]. destruct prev; [rewrite <- app_assoc|]; exact X.
  - apply lexes_token; [discriminate|apply match_class, W|]. destruct (class_text_long neg l) as (d & s & E). rewrite E in *. rewrite cm_class. exact X.
  - apply (lexes_token [ch "\"; c]); [discriminate|apply match_escape, W|]. rewrite cm_esc. exact X.
  - rewrite <- app_assoc. apply IHa; [apply W|]. apply IHb; [apply W|]. cbn [dot]. rewrite <- !app_assoc. exact X.
  - rewrite <- !app_assoc. apply IHa; [apply W|]. apply (lexes_token (lit "|")); [discriminate|apply match_op; cbv; tauto|]. rewrite cm_bar.
    apply IHb; [apply W|]. cbn [dot app]. rewrite <- !app_assoc. exact X.
  - rewrite <- app_assoc. apply IH; [apply W|]. apply (lexes_token (lit "*")); [discriminate|apply match_op; cbv; tauto|]. rewrite cm_star. rewrite <- !app_assoc. exact X.
  - rewrite <- app_assoc. apply IH; [apply W|]. apply (lexes_token (lit "+")); [discriminate|apply match_op; cbv; tauto|]. rewrite cm_plus. rewrite <- !app_assoc. exact X.
  - rewrite <- app_assoc. apply IH; [apply W|]. apply (lexes_token (lit "?")); [discriminate|apply match_op; cbv; tauto|]. rewrite cm_opt. rewrite <- !app_assoc. exact X.
  - rewrite <- app_assoc. apply IH; [apply W|]. destruct W as (_ & _ & W). destruct (bounds_text_long b) as (d & s & E).
    apply lexes_token; [rewrite E; discriminate|apply match_bounds, W|]. rewrite E in *. rewrite cm_brace. rewrite <- !app_assoc. exact X.
  - rewrite <- !app_assoc. apply (lexes_token (lit "(")); [discriminate|apply match_op; cbv; tauto|]. rewrite cm_lpar.
    apply IH; [exact W|]. apply (lexes_token (lit ")")); [discriminate|apply match_op; cbv; tauto|]. rewrite cm_rpar.
    cbn [dot app]. rewrite <- !app_assoc. exact X.
Qed.
Lemma tokenizer_show alphabet r : well_formed alphabet r -> tokenizer_re (show r) = infx (tree_re r).
Proof.
  intros W. rewrite (lexes_tokenizer (show r) (infx (tree_re r), true)); [reflexivity|]. rewrite <- (app_nil_r (show r)). apply (lexes_show alphabet r W [] [] false). apply lexes_end.
Qed.

(** ** Fits *)
Definition prec_re (n : nat) : nat := 5 - n.
Definition has_re (o : str) (p : Op) : Prop := dget map_operators_re o = Some p.
Lemma binds_re o1 o2 p1 p2 : has_re o1 p1 -> has_re o2 p2 -> (binds_left map_operators_re o1 o2 <-> precedence p2 < precedence p1 \/ (precedence p1 = precedence p2 /\ left p2 = true)).
Proof.
  intros H1 H2. split.
  - intros (q1 & q2 & E1 & E2 & X). unfold has_re in *. rewrite H1 in E1. rewrite H2 in E2. injection E1 as <-. injection E2 as <-. exact X.
  - intros X. exists p1, p2. auto.
Qed.
Definition borders_re (r : rexp) : Prop :=
  (level r = 0 -> left_border (tree_re r) = [] /\ right_border (tree_re r) = []) /\
  (forall o, In o (right_border (tree_re r)) -> exists p, has_re o p /\ 5 - level r <= precedence p) /\
  (forall o, In o (left_border (tree_re r)) -> exists p, has_re o p /\ 5 - level r <= precedence p).
Definition opnd (a : str) : Prop := operand (lit "(") (lit ")") map_operators_re a.
Lemma operand_long c d s : opnd (c :: d :: s).
Proof. split; [discriminate|]. split; [discriminate|]. intros I. cbv in I. intuition discriminate. Qed.
Lemma operand_char c : ~ In c (lit "*+?.|(){[\") -> opnd [c].
Proof.
  intros N. split; [|split].
  - intros E. injection E as ->. apply N. cbv. tauto.
  - intros E. injection E as ->. apply N. cbv. tauto.
  - intros I. apply N. cbv in I. repeat (destruct I as [E|I]; [injection E as <-; cbv; tauto|]). destruct I.
Qed.

Lemma tree_re_fits alphabet r : well_formed alphabet r -> fits (lit "(") (lit ")") map_operators_re (tree_re r) /\ borders_re r.
Proof.
  assert (OP : forall o, In o [lit "*"; lit "+"; lit "?"; lit "."; lit "|"] -> operator (lit "(") (lit ")") map_operators_re o).
  { intros o I. cbn [In] in I. repeat (destruct I as [<-|I]; [split; [discriminate|split; [discriminate|cbv; tauto]]|]). destruct I. }
  assert (POST : forall x o p lv, has_re o p -> left p = true -> precedence p = 5 - S lv -> lv <= 3 -> operator (lit "(") (lit ")") map_operators_re o ->
    fits (lit "(") (lit ")") map_operators_re (tree_re x) /\ borders_re x -> level x <= S lv ->
    fits (lit "(") (lit ")") map_operators_re (Post (tree_re x) o) /\
    ((S lv = 0 -> left_border (Post (tree_re x) o) = [] /\ right_border (Post (tree_re x) o) = []) /\
     (forall o', In o' (right_border (Post (tree_re x) o)) -> exists p, has_re o' p /\ 5 - S lv <= precedence p) /\
     (forall o', In o' (left_border (Post (tree_re x) o)) -> exists p, has_re o' p /\ 5 - S lv <= precedence p))).
  { intros x o p lv Hp Lp Pp Hlv Oo (F & B0 & BR & BL) Lx. cbn [fits left_border right_border]. split; [split; [exact F|split; [exact Oo|]]|].
    - intros o' I. destruct (BR o' I) as (q & Hq & Pq). apply (binds_re _ _ _ _ Hq Hp). rewrite Lp. lia.
    - split; [discriminate|]. split.
      + intros o' [<-|[]]. exists p. split; [exact Hp|lia].
      + intros o' I. apply in_app_iff in I. destruct I as [I|[<-|[]]]; [|exists p; split; [exact Hp|lia]]. destruct (BL o' I) as (q & Hq & Pq). exists q. split; [exact Hq|lia]. }
  assert (BIN : forall a b o p lv, has_re o p -> left p = true -> precedence p = 5 - S lv -> lv <= 3 -> operator (lit "(") (lit ")") map_operators_re o ->
    fits (lit "(") (lit ")") map_operators_re (tree_re a) /\ borders_re a -> fits (lit "(") (lit ")") map_operators_re (tree_re b) /\ borders_re b -> level a <= S lv -> level b <= lv ->
    fits (lit "(") (lit ")") map_operators_re (Bin (tree_re a) o (tree_re b)) /\
    ((S lv = 0 -> left_border (Bin (tree_re a) o (tree_re b)) = [] /\ right_border (Bin (tree_re a) o (tree_re b)) = []) /\
     (forall o', In o' (right_border (Bin (tree_re a) o (tree_re b))) -> exists p, has_re o' p /\ 5 - S lv <= precedence p) /\
     (forall o', In o' (left_border (Bin (tree_re a) o (tree_re b))) -> exists p, has_re o' p /\ 5 - S lv <= precedence p))).
  { intros a b o p lv Hp Lp Pp Hlv Oo (F & B0 & BR & BL) (F' & B0' & BR' & BL') La Lb. cbn [fits left_border right_border].
    split; [split; [exact F|split; [exact Oo|split; [exact F'|split]]]|].
    - intros o' I. destruct (BR o' I) as (q & Hq & Pq). apply (binds_re _ _ _ _ Hq Hp). rewrite Lp. lia.
    - intros o' I X. destruct (BL' o' I) as (q & Hq & Pq). apply (binds_re _ _ _ _ Hp Hq) in X. lia.
    - split; [discriminate|]. split.
      + intros o' [<-|I]; [exists p; split; [exact Hp|lia]|]. destruct (BR' o' I) as (q & Hq & Pq). exists q. split; [exact Hq|lia].
      + intros o' I. apply in_app_iff in I. destruct I as [I|[<-|[]]]; [|exists p; split; [exact Hp|lia]]. destruct (BL o' I) as (q & Hq & Pq). exists q. split; [exact Hq|lia]. }
  induction r as [c|neg l|c|a IHa b IHb|a IHa b IHb|x IH|x IH|x IH|x IH b|x IH]; intros W; cbn [well_formed] in W.
  - split; [apply operand_char, W|]. split; [auto|]. split; intros o [].
  - cbn [tree_re fits]. destruct (class_text_long neg l) as (d & s & ->). split; [apply operand_long|]. split; [auto|]. split; intros o [].
  - split; [apply operand_long|]. split; [auto|]. split; intros o [].
  - destruct W as (Wa & Wb & La & Lb). eapply (BIN a b (lit ".") _ 2); [reflexivity|reflexivity|reflexivity|lia|apply OP; cbn; tauto|auto|auto|exact La|exact Lb].
  - destruct W as (Wa & Wb & Lb). eapply (BIN a b (lit "|") _ 3); [reflexivity|reflexivity|reflexivity|lia|apply OP; cbn; tauto|auto|auto|destruct a; cbn; lia|exact Lb].
  - destruct W as (W & Lx). eapply (POST x (lit "*") _ 0); [reflexivity|reflexivity|reflexivity|lia|apply OP; cbn; tauto|auto|exact Lx].
  - destruct W as (W & Lx). eapply (POST x (lit "+") _ 0); [reflexivity|reflexivity|reflexivity|lia|apply OP; cbn; tauto|auto|exact Lx].
  - destruct W as (W & Lx). eapply (POST x (lit "?") _ 1); [reflexivity|reflexivity|reflexivity|lia|apply OP; cbn; tauto|auto|exact Lx].
  - destruct W as (W & Lx & OK). destruct (IH W) as (F & B0 & _). destruct (B0 Lx) as (Z1 & Z2). unfold borders_re. cbn [tree_re fits left_border right_border level]. split; [split; [exact F|split; [|exact Z2]]|].
    + destruct (bounds_text_long b) as (d & s & ->). apply operand_long.
    + rewrite Z1. split; [auto|]. split; intros o [].
  - destruct (IH W) as (F & _). split; [exact F|]. split; [auto|]. split; intros o [].
Qed.
