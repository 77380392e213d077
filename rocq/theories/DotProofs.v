(** Lemmas on the reader of DOT. *)
From Coq Require Import String Decimal DecimalString DecimalNat Lia.
From Verif Require Import Str Graph Graphviz GraphvizSpec GraphvizProofs GraphvizProofs2 DotSpec.
From Verif Require Import Base BaseProofs.
Open Scope string_scope.
Open Scope nat_scope.
Open Scope list_scope.

(** ** Tokens *)

Lemma prepend_app a b x : prepend (a ++ b) x = prepend a (prepend b x).
Proof. destruct x as [[l m]|]; cbn; [now rewrite <- app_assoc|reflexivity]. Qed.
Lemma prepend_nil x : prepend [] x = x.
Proof. destruct x as [[l m]|]; reflexivity. Qed.
Lemma run_app s r : forall m, run_lexer m (s ++ r) = match run_lexer m s with Some (l, m') => prepend l (run_lexer m' r) | None => None end.
Proof.
  induction s as [|c s IH]; intros m; cbn [run_lexer app]; [now rewrite prepend_nil|].
  destruct (step m c) as [[l m']|]; [|reflexivity]. rewrite IH. destruct (run_lexer m' s) as [[l2 m2]|]; cbn [prepend]; [|reflexivity].
  now rewrite prepend_app.
Qed.

(** [s] is read as whole tokens *)
Definition lexes (s : str) (l : list token) : Prop := run_lexer MStart s = Some (l, MStart).
Lemma lexes_nil : lexes [] [].
Proof. reflexivity. Qed.
Lemma lexes_app s r l k : lexes s l -> lexes r k -> lexes (s ++ r) (l ++ k).
Proof. unfold lexes. intros A B. rewrite run_app, A, B. reflexivity. Qed.
Lemma lexes_tokens s l : lexes s l -> tokens s = Some l.
Proof. unfold lexes, tokens. now intros ->. Qed.
Lemma run_from s : forall m l m', run_lexer m s = Some (l, m') -> forall r, run_lexer m (s ++ r) = prepend l (run_lexer m' r).
Proof. intros m l m' E r. now rewrite run_app, E. Qed.

(** the separators that end a word *)
Definition ends_word (c : char) : Prop := dot_alnum c = false /\ c <> ch "." /\ exists l, start c = Some (l, MStart).
Lemma name_run s : forallb dot_alnum s = true -> forall a, run_lexer (MName a) s = Some ([], MName (a ++ s)).
Proof.
  induction s as [|c s IH]; cbn [forallb run_lexer]; intros H a; [now rewrite app_nil_r|].
  apply andb_true_iff in H as [H1 H2]. cbn [step]. rewrite H1, IH by exact H2. cbn. now rewrite <- app_assoc.
Qed.
Lemma num_run s : forallb dot_digit s = true -> forall a, run_lexer (MNum a) s = Some ([], MNum (a ++ s)).
Proof.
  induction s as [|c s IH]; cbn [forallb run_lexer]; intros H a; [now rewrite app_nil_r|].
  apply andb_true_iff in H as [H1 H2]. cbn [step]. rewrite H1. cbn [orb]. rewrite IH by exact H2. cbn. now rewrite <- app_assoc.
Qed.
Lemma letter_start c : dot_letter c = true -> start c = Some ([], MName [c]).
Proof.
  intros H. unfold start. rewrite H. destruct (mem_reflect c [32; 9; 10; 13]%N) as [I|N]; unfold dot_space.
  { exfalso. cbn in I. intuition (subst c; discriminate). }
  replace (mem c [32; 9; 10; 13]%N) with false by (symmetry; now apply mem_false).
  destruct (BaseProofs.eqb_spec c (ch """")) as [->|]; [discriminate|]. destruct (BaseProofs.eqb_spec c (ch "<")) as [->|]; [discriminate|]. reflexivity.
Qed.
Lemma digit_letter c : dot_digit c = true -> dot_letter c = false.
Proof.
  unfold dot_digit, dot_letter. intros H. apply andb_true_iff in H as [H1 H2]. apply N.leb_le in H1, H2.
  apply not_true_iff_false. rewrite !orb_true_iff, !andb_true_iff, !N.leb_le, N.eqb_eq. lia.
Qed.
Lemma digit_start c : dot_digit c = true -> start c = Some ([], MNum [c]).
Proof.
  intros H. unfold start. rewrite (digit_letter c H), H. unfold dot_space. destruct (mem_reflect c [32; 9; 10; 13]%N) as [I|N].
  { exfalso. cbn in I. intuition (subst c; discriminate). }
  replace (mem c [32; 9; 10; 13]%N) with false by (symmetry; now apply mem_false).
  destruct (BaseProofs.eqb_spec c (ch """")) as [->|]; [discriminate|]. destruct (BaseProofs.eqb_spec c (ch "<")) as [->|]; [discriminate|]. reflexivity.
Qed.

Lemma lex_key k c l : dot_key k -> ends_word c -> start c = Some (l, MStart) -> lexes (k ++ [c]) (TWord k :: l).
Proof.
  intros (a & s & -> & A & B & _) (W & _) E. unfold lexes. cbn [app run_lexer step]. rewrite (letter_start a A). cbn [prepend].
  rewrite run_app, (name_run s B). cbn [run_lexer step]. rewrite W, E. cbn. now rewrite app_nil_r.
Qed.
Lemma lex_num s c l : s <> [] -> forallb dot_digit s = true -> ends_word c -> start c = Some (l, MStart) -> lexes (s ++ [c]) (TWord s :: l).
Proof.
  intros N D (W & P & _) E. destruct s as [|a s]; [congruence|]. cbn [forallb] in D. apply andb_true_iff in D as [A B].
  unfold lexes. cbn [app run_lexer step]. rewrite (digit_start a A). cbn [prepend]. rewrite run_app, (num_run s B). cbn [run_lexer step].
  unfold dot_alnum in W. apply orb_false_iff in W as [W1 W2]. rewrite W1, W2. replace (eqb c (ch ".")) with false by (symmetry; now apply eqb_neq).
  cbn. rewrite E. cbn. now rewrite app_nil_r.
Qed.
Lemma quote_run s : dot_value s -> forall a, run_lexer (MQuote a) s = Some ([], MQuote (a ++ s)).
Proof.
  induction 1 as [|c s Q B H IH|c s Q N H IH]; intros a; cbn [run_lexer]; [now rewrite app_nil_r| |].
  - cbn [step]. replace (eqb c (ch """")) with false by (symmetry; now apply eqb_neq).
    replace (eqb c (ch "\")) with false by (symmetry; now apply eqb_neq). rewrite IH. cbn. now rewrite <- app_assoc.
  - cbn [step]. change (eqb (ch "\") (ch """")) with false. change (eqb (ch "\") (ch "\")) with true. cbn iota. cbn [step].
    replace (eqb c (ch """")) with false by (symmetry; now apply eqb_neq).
    replace (eqb c 10%N) with false by (symmetry; now apply eqb_neq). rewrite IH. cbn. now rewrite <- app_assoc.
Qed.
Lemma lex_quoted s : dot_value s -> lexes (lit """" ++ s ++ lit """") [TQuoted s].
Proof.
  intros H. unfold lexes. change (lit """" ++ s ++ lit """") with (ch """" :: (s ++ [ch """"])). cbn [run_lexer step].
  change (start (ch """")) with (Some (@nil token, MQuote [])). cbn iota. rewrite prepend_nil, run_app, (quote_run s H). reflexivity.
Qed.

(** [s] is balanced: closes what it opens *)
Definition balanced (s : str) : Prop := forall d a, run_lexer (MHtml d a) s = Some ([], MHtml d (a ++ s)).
Lemma balanced_nil : balanced [].
Proof. intros d a. cbn. now rewrite app_nil_r. Qed.
Lemma balanced_app s r : balanced s -> balanced r -> balanced (s ++ r).
Proof. intros A B d a. rewrite run_app, A, B. cbn. now rewrite <- app_assoc. Qed.
Lemma balanced_char c : c <> ch "<" -> c <> ch ">" -> balanced [c].
Proof.
  intros A B d a. cbn [run_lexer step]. replace (eqb c (ch "<")) with false by (symmetry; now apply eqb_neq).
  replace (eqb c (ch ">")) with false by (symmetry; now apply eqb_neq). reflexivity.
Qed.
Lemma balanced_plain s : Forall (fun c => c <> ch "<" /\ c <> ch ">") s -> balanced s.
Proof. induction 1 as [|c s [A B] H IH]; [apply balanced_nil|]. apply (balanced_app [c] s); [now apply balanced_char|exact IH]. Qed.
Lemma balanced_wrap s : balanced s -> balanced (ch "<" :: s ++ [ch ">"]).
Proof.
  intros H d a. cbn [run_lexer step]. change (eqb (ch "<") (ch "<")) with true. cbn iota. rewrite prepend_nil, run_app, H. cbn.
  now rewrite <- !app_assoc.
Qed.
Lemma lex_html s : balanced s -> lexes (lit "<" ++ s ++ lit ">") [THtml s].
Proof.
  intros H. unfold lexes. change (lit "<" ++ s ++ lit ">") with (ch "<" :: (s ++ [ch ">"])). cbn [run_lexer step].
  change (start (ch "<")) with (Some (@nil token, MHtml 0 [])). cbn iota. rewrite prepend_nil, run_app, H. reflexivity.
Qed.
Lemma balanced_tag t : html_tag t -> ~ In (ch "<") (tl t) -> balanced t.
Proof.
  intros T N. destruct (html_tag_gt t T) as (u & -> & G). destruct (html_tag_lt _ T) as [w E]. destruct u as [|x u].
  - cbn in E. injection E as E _. discriminate E.
  - cbn [app] in E. injection E as -> _. apply balanced_wrap, balanced_plain, Forall_forall. intros c I. split; intros ->.
    + apply N. cbn [tl app]. apply in_or_app. now left.
    + apply G. now right.
Qed.
Lemma balanced_label v l : dot_label v -> escapes v l -> balanced (concat (map snd l)).
Proof.
  intros D E. pose proof (escapes_clean v l E) as C. assert (H : forall t, In (true, t) l -> ~ In (ch "<") (tl t)) by (intros t I; exact (D l t E I)).
  clear D E. induction C as [|[b p] l C _ IH]; cbn [map concat]; [apply balanced_nil|]. cbn [fst snd] in *. apply balanced_app.
  - destruct b; [apply balanced_tag; [exact C|apply H; now left]|]. apply balanced_plain. eapply Forall_impl; [|exact C].
    unfold clean. intros c K. split; intros ->; apply (proj1 K); cbn; tauto.
  - apply IH. intros t I. apply H. now right.
Qed.

(** ** Numbers *)
Lemma uint_digits d : forallb dot_digit (lit (NilEmpty.string_of_uint d)) = true.
Proof. induction d; [reflexivity|..]; exact IHd. Qed.
Lemma digits_nat n : forallb dot_digit (str_nat n) = true.
Proof. apply uint_digits. Qed.
Lemma uint_number d : forall a, fold_left (fun n c => 10 * n + (N.to_nat c - 48)) (lit (NilEmpty.string_of_uint d)) a = Nat.of_uint_acc d a.
Proof.
  induction d; intros a; cbn [NilEmpty.string_of_uint Nat.of_uint_acc]; [reflexivity|..];
    (etransitivity; [|rewrite <- IHd; reflexivity]); cbn [lit list_ascii_of_string map fold_left]; f_equal; rewrite Nat.tail_mul_spec; cbn; lia.
Qed.
Lemma number_nat n : number (str_nat n) = n.
Proof. unfold number, str_nat. rewrite uint_number. change (Nat.of_uint (Nat.to_uint n) = n). apply Unsigned.of_to. Qed.
Lemma numbered_nat n : numbered (Name (str_nat n)) = Some n.
Proof.
  unfold numbered. pose proof (str_nat_nonempty n) as N. pose proof (digits_nat n) as D. pose proof (number_nat n) as V.
  destruct (str_nat n) as [|c s]; [congruence|]. now rewrite D, V.
Qed.

(** ** Statements *)

(** more fuel changes nothing *)
Lemma statements_mono d : forall n m l ss, read_statements n d l = Some ss -> n <= m -> read_statements m d l = Some ss.
Proof.
  induction n as [|n IH]; intros m l ss E L; [discriminate|]. destruct m as [|m]; [lia|]. cbn [read_statements] in *.
  assert (S : forall l', match read_statement d l' with
      | Some (s, r) => match read_statements n d (match r with t :: r' => if is_sym (ch ";") t then r' else r | [] => r end) with
                       | Some ss => Some (s :: ss) | None => None end
      | None => None end = Some ss ->
      match read_statement d l' with
      | Some (s, r) => match read_statements m d (match r with t :: r' => if is_sym (ch ";") t then r' else r | [] => r end) with
                       | Some ss => Some (s :: ss) | None => None end
      | None => None end = Some ss).
  { intros l'. destruct (read_statement d l') as [[s r]|]; [|trivial]. destruct (read_statements n d _) as [x|] eqn:X; [|discriminate].
    intros E'. rewrite (IH m _ x X) by lia. exact E'. }
  destruct l as [|t [|t' l]]; [now apply S|exact E|now apply S].
Qed.

(** The tokens [ts], which end with ";", are the statements [ss], whatever follows. *)
Definition parses (d : bool) (ts : list token) (ss : list statement) : Prop :=
  forall n r rs, r <> [] -> read_statements n d r = Some rs -> read_statements (n + List.length ts) d (ts ++ r) = Some (ss ++ rs).
Lemma parses_nil d : parses d [] [].
Proof. intros n r rs _ E. cbn. now rewrite Nat.add_0_r. Qed.
Lemma parses_app d t1 t2 s1 s2 : parses d t1 s1 -> parses d t2 s2 -> parses d (t1 ++ t2) (s1 ++ s2).
Proof.
  intros A B n r rs N E. rewrite <- !app_assoc, app_length. rewrite (Nat.add_comm (length t1)), Nat.add_assoc. apply A; [|now apply B].
  destruct t2; [exact N|discriminate].
Qed.
Lemma parses_one d ts s : ts <> [] -> (forall r, read_statement d (ts ++ TSym (ch ";") :: r) = Some (s, TSym (ch ";") :: r)) ->
  parses d (ts ++ [TSym (ch ";")]) [s].
Proof.
  intros N H n r rs Nr E. rewrite <- app_assoc, app_length, Nat.add_assoc. cbn [app List.length]. rewrite Nat.add_1_r. cbn [read_statements].
  destruct ts as [|t ts]; [congruence|]. cbn [app].
  assert (E2 : match read_statement d (t :: ts ++ TSym (ch ";") :: r) with
    | Some (s, r) => match read_statements (n + length (t :: ts)) d (match r with t :: r' => if is_sym (ch ";") t then r' else r | [] => r end) with
                     | Some ss => Some (s :: ss) | None => None end
    | None => None end = Some (s :: rs)).
  { change (t :: ts ++ TSym (ch ";") :: r) with ((t :: ts) ++ TSym (ch ";") :: r). rewrite H.
    change (is_sym (ch ";") (TSym (ch ";"))) with true. cbn iota. rewrite (statements_mono d n _ r rs E) by lia. reflexivity. }
  destruct ts as [|t' ts]; exact E2.
Qed.

Lemma key_ident k : dot_key k -> ident_of (TWord k) = Some (Name k).
Proof. intros (c & s & -> & _ & _ & K). cbn [ident_of]. now rewrite K. Qed.

(** attributes *)
Fixpoint attr_tokens (l : list (str * token)) : list token :=
  match l with
  | [] => []
  | [(k, v)] => [TWord k; TSym (ch "="); v]
  | (k, v) :: l' => TWord k :: TSym (ch "=") :: v :: TSym (ch ";") :: attr_tokens l'
  end.
Definition good_attr (x : str * token) (y : ident * ident) : Prop := dot_key (fst x) /\ fst y = Name (fst x) /\ ident_of (snd x) = Some (snd y).
Lemma read_attr_tokens l a : Forall2 good_attr l a -> forall r, read_attributes (attr_tokens l ++ TSym (ch "]") :: r) = Some (a, r).
Proof.
  induction 1 as [|[k v] [k' v'] l a (K & E & V) F IH]; intros r; [reflexivity|]. cbn [fst snd] in *. subst k'.
  assert (G : forall sep r', is_sym (ch ";") sep || is_sym (ch ",") sep = false \/ sep = TSym (ch ";") ->
      read_attributes (TWord k :: TSym (ch "=") :: v :: sep :: r') =
      match (if is_sym (ch ";") sep || is_sym (ch ",") sep then read_attributes r' else read_attributes (sep :: r')) with
      Some (a, r) => Some ((Name k, v') :: a, r) | None => None end).
  { intros sep r' _. cbn [read_attributes is_sym]. change (eqb (ch "=") (ch "=")) with true. cbn iota. now rewrite (key_ident k K), V. }
  destruct l as [|x l].
  - inversion F; subst a. cbn [attr_tokens app]. rewrite G by now left. reflexivity.
  - destruct x as [k2 v2]. cbn [attr_tokens app] in *. rewrite G by now right. change (is_sym (ch ";") (TSym (ch ";")) || is_sym (ch ",") (TSym (ch ";"))) with true.
    cbn iota. rewrite IH. reflexivity.
Qed.

(** statements written by to_dot *)
Lemma num_ident s : s <> [] -> forallb dot_digit s = true -> ident_of (TWord s) = Some (Name s) /\ read_kind (TWord s) = None.
Proof.
  intros N D. destruct s as [|c s]; [congruence|]. cbn [forallb] in D. apply andb_true_iff in D as [D _].
  assert (L : lower c = c).
  { unfold lower. unfold dot_digit in D. apply andb_true_iff in D as [D1 D2]. apply N.leb_le in D1, D2.
    replace (65 <=? c)%N with false; [reflexivity|]. symmetry. apply N.leb_gt. lia. }
  assert (H : forall x y, dot_letter x = true -> map lower (c :: s) <> x :: y).
  { intros x y X E. cbn [map] in E. injection E as E _. rewrite L in E. subst x. apply digit_letter in D. congruence. }
  split.
  - cbn [ident_of]. unfold keyword. replace (mem (map lower (c :: s)) _) with false; [reflexivity|]. symmetry. apply mem_false.
    cbn [map In]. intros I. repeat (destruct I as [I|I]; [symmetry in I; revert I; apply H; reflexivity|]). exact I.
  - cbn [read_kind]. repeat (match goal with |- context[eqb ?a ?b] => destruct (BaseProofs.eqb_spec a b) as [E|_]; [exfalso; revert E; apply H; reflexivity|] end).
    reflexivity.
Qed.
(** a list of attributes between brackets, or nothing *)
Definition list_tokens (l : option (list (str * token))) : list token :=
  match l with None => [] | Some l => TSym (ch "[") :: attr_tokens l ++ [TSym (ch "]")] end.
Definition good_list (l : option (list (str * token))) (a : attributes) : Prop :=
  match l with None => a = [] | Some l => Forall2 good_attr l a end.
Lemma read_list_tokens l a r : good_list l a -> read_list (list_tokens l ++ TSym (ch ";") :: r) = Some (a, TSym (ch ";") :: r).
Proof.
  destruct l as [l|]; cbn [good_list list_tokens app].
  - intros F. cbn [read_list]. change (is_sym (ch "[") (TSym (ch "["))) with true. cbn iota. rewrite <- app_assoc. now apply read_attr_tokens.
  - intros ->. reflexivity.
Qed.
Lemma list_start l r : match list_tokens l ++ TSym (ch ";") :: r with
  | [] => False | t :: _ => t = TSym (ch "[") \/ t = TSym (ch ";") end.
Proof. destruct l; cbn; tauto. Qed.
Lemma parses_node d u l a : good_list l a -> parses d (TWord (str_nat u) :: list_tokens l ++ [TSym (ch ";")]) [SNode (Name (str_nat u)) a].
Proof.
  intros G. apply (parses_one d (TWord (str_nat u) :: list_tokens l)); [discriminate|]. intros r. cbn [app read_statement].
  destruct (num_ident (str_nat u) (str_nat_nonempty u) (digits_nat u)) as [-> ->]. pose proof (list_start l r) as S.
  pose proof (read_list_tokens l a r G) as E. destruct (list_tokens l ++ TSym (ch ";") :: r) as [|t [|t' x]]; [destruct S| |]; rewrite E; [reflexivity|].
  destruct S as [->| ->]; destruct d; reflexivity.
Qed.
Lemma parses_edge (d : bool) u v l a : good_list l a ->
  parses d (TWord (str_nat u) :: (if d then TArrow else TLine) :: TWord (str_nat v) :: list_tokens l ++ [TSym (ch ";")])
    [SEdge (Name (str_nat u)) (Name (str_nat v)) a].
Proof.
  intros G. apply (parses_one d (TWord (str_nat u) :: (if d then TArrow else TLine) :: TWord (str_nat v) :: list_tokens l)); [discriminate|].
  intros r. cbn [app read_statement].
  destruct (num_ident (str_nat u) (str_nat_nonempty u) (digits_nat u)) as [-> ->].
  destruct (num_ident (str_nat v) (str_nat_nonempty v) (digits_nat v)) as [-> _].
  replace (is_arc d (if d then TArrow else TLine)) with true by (destruct d; reflexivity). now rewrite (read_list_tokens l a r G).
Qed.
Definition kind_word (k : kind) : str := match k with KGraph => lit "graph" | KNode => lit "node" | KEdge => lit "edge" end.
Lemma parses_default d k l a : Forall2 good_attr l a ->
  parses d (TWord (kind_word k) :: list_tokens (Some l) ++ [TSym (ch ";")]) [SDefault k a].
Proof.
  intros G. apply (parses_one d (TWord (kind_word k) :: list_tokens (Some l))); [discriminate|]. intros r. cbn [app read_statement list_tokens].
  replace (read_kind (TWord (kind_word k))) with (Some k) by (destruct k; reflexivity).
  change (is_sym (ch "[") (TSym (ch "["))) with true. cbn iota. rewrite <- app_assoc. cbn [app]. now rewrite (read_attr_tokens l a G).
Qed.
