(** The texts written by to_dot, read as DOT. *)
From Coq Require Import String Lia.
From Verif Require Import Str Graph Graphviz GraphvizSpec GraphvizProofs GraphvizProofs2 DotSpec DotProofs.
From Verif Require Import Base BaseProofs.
Open Scope string_scope.
Open Scope nat_scope.
Open Scope list_scope.

(** ** Statements given as texts *)

Lemma is_sym_eq c t : is_sym c t = true -> t = TSym c.
Proof. destruct t; try discriminate. cbn [is_sym]. intros H. destruct (BaseProofs.eqb_spec c c0) as [->|N]; [reflexivity|discriminate]. Qed.

Lemma cut_end {A} (a b x : A) : x <> a -> x <> b -> forall u r ts, ts ++ [a; b] = u ++ x :: r -> exists r2, r = r2 ++ [a; b] /\ ts = u ++ x :: r2.
Proof.
  intros XA XB. induction u as [|y u IH]; intros r ts E.
  - destruct ts as [|t ts]; cbn in E; injection E as E1 E2; [congruence|]. subst. now exists ts.
  - destruct ts as [|t ts]; cbn in E.
    + injection E as _ E. destruct u as [|z [|w u]]; cbn in E; try discriminate; injection E as E; congruence.
    + injection E as -> E. destruct (IH r ts E) as (r2 & -> & ->). now exists r2.
Qed.

Lemma attributes_local : forall n l a r, List.length l <= n -> read_attributes l = Some (a, r) ->
  exists u, l = u ++ TSym (ch "]") :: r /\ forall y, read_attributes (u ++ TSym (ch "]") :: y) = Some (a, y).
Proof.
  induction n as [|n IH]; intros l a r L E; [destruct l; [discriminate|cbn in L; lia]|]. destruct l as [|t l1]; [discriminate|].
  cbn [read_attributes] in E. destruct (is_sym (ch "]") t) eqn:T.
  { injection E as <- <-. apply is_sym_eq in T. subst t. now exists []. }
  destruct l1 as [|t2 [|v l2]]; try discriminate. destruct (is_sym (ch "=") t2) eqn:T2; [|discriminate].
  destruct (ident_of t) as [k|] eqn:K; [|discriminate]. destruct (ident_of v) as [w|] eqn:V; [|discriminate].
  destruct l2 as [|sep l3]; [discriminate|]. cbn [List.length] in L. destruct (is_sym (ch ";") sep || is_sym (ch ",") sep) eqn:S.
  - destruct (read_attributes l3) as [[a' r']|] eqn:R; [|discriminate]. injection E as <- <-.
    destruct (IH l3 a' r' ltac:(lia) R) as (u & -> & H). exists (t :: t2 :: v :: sep :: u). split; [reflexivity|]. intros y. cbn [app read_attributes].
    now rewrite T, T2, K, V, S, H.
  - destruct (read_attributes (sep :: l3)) as [[a' r']|] eqn:R; [|discriminate]. injection E as <- <-.
    destruct (IH (sep :: l3) a' r' ltac:(cbn; lia) R) as (u & Eu & H). exists (t :: t2 :: v :: u). split; [cbn [app]; now rewrite Eu|]. intros y.
    cbn [app]. specialize (H y). destruct u as [|s' u].
    + cbn [app read_attributes] in *. rewrite T, T2, K, V. injection H as <-. reflexivity.
    + cbn [app] in *. injection Eu as -> _. cbn [read_attributes]. rewrite T, T2, K, V, S. cbn [read_attributes] in H. now rewrite H.
Qed.

Definition tail2 := [TSym (ch ";"); TSym (ch "}")].
Lemma attributes_cut ts a r : read_attributes (ts ++ tail2) = Some (a, r) -> exists u ts2, ts = u ++ ts2 /\ u <> [] /\ r = ts2 ++ tail2 /\
  forall y, read_attributes (ts ++ y) = Some (a, ts2 ++ y).
Proof.
  intros E. destruct (attributes_local _ _ _ _ (le_n _) E) as (u & E2 & H). apply cut_end in E2; [|discriminate|discriminate]. destruct E2 as (ts2 & -> & ->).
  exists (u ++ [TSym (ch "]")]), ts2. rewrite <- app_assoc. repeat split; [destruct u; discriminate|]. intros y. rewrite <- app_assoc. exact (H (ts2 ++ y)).
Qed.
Lemma list_cut ts a r : read_list (ts ++ tail2) = Some (a, r) -> exists u ts2, ts = u ++ ts2 /\ r = ts2 ++ tail2 /\
  forall y, read_list (ts ++ TSym (ch ";") :: y) = Some (a, ts2 ++ TSym (ch ";") :: y).
Proof.
  destruct ts as [|t ts]; cbn [app]; intros E.
  - change (Some ([], tail2) = Some (a, r)) in E. injection E as <- <-. exists [], []. repeat split.
  - cbn [read_list] in *. destruct (is_sym (ch "[") t) eqn:T.
    + destruct (attributes_cut ts a r E) as (u & ts2 & -> & _ & -> & H). exists (t :: u), ts2. repeat split. intros y. now rewrite H.
    + injection E as <- <-. exists [], (t :: ts). repeat split.
Qed.
Lemma statement_cut d ts s r : read_statement d (ts ++ tail2) = Some (s, r) -> exists u ts2, ts = u ++ ts2 /\ u <> [] /\ r = ts2 ++ tail2 /\
  forall y, read_statement d (ts ++ TSym (ch ";") :: y) = Some (s, ts2 ++ TSym (ch ";") :: y).
Proof.
  destruct ts as [|t ts]; [intros E; discriminate E|]. cbn [app read_statement]. destruct (read_kind t) as [k|] eqn:K.
  { destruct ts as [|b ts]; cbn [app tail2]; [intros E; discriminate E|]. destruct (is_sym (ch "[") b) eqn:B; [|discriminate].
    destruct (read_attributes (ts ++ tail2)) as [[a r']|] eqn:A; [|discriminate]. intros E. injection E as <- <-.
    destruct (attributes_cut ts a r' A) as (u & ts2 & -> & _ & -> & H). exists (t :: b :: u), ts2. repeat split; [discriminate|]. intros y. now rewrite H. }
  destruct (ident_of t) as [w|] eqn:W; [|discriminate].
  assert (G : forall a r', read_list (ts ++ tail2) = Some (a, r') -> exists u ts2, t :: ts = u ++ ts2 /\ u <> [] /\ r' = ts2 ++ tail2 /\
    forall y, read_list (ts ++ TSym (ch ";") :: y) = Some (a, ts2 ++ TSym (ch ";") :: y)).
  { intros a r' E. destruct (list_cut ts a r' E) as (u & ts2 & -> & -> & H). exists (t :: u), ts2. repeat split; [discriminate|exact H]. }
  destruct ts as [|op [|v ts]].
  - cbn [app]. intros E. change (Some (SNode w [], tail2) = Some (s, r)) in E. injection E as <- <-. exists [t], []. repeat split; [discriminate|].
    intros [|z y]; [reflexivity|]. replace (is_arc d (TSym (ch ";"))) with false by (destruct d; reflexivity). reflexivity.
  - cbn [app]. unfold tail2 at 1. destruct (is_arc d op) eqn:O; [intros E; discriminate E|]. destruct (is_sym (ch "=") op) eqn:Q; [intros E; discriminate E|].
    fold tail2. destruct (read_list ([op] ++ tail2)) as [[a r']|] eqn:R.
    2:{ cbn [app] in R. intros E. change (op :: TSym (ch ";") :: [TSym (ch "}")]) with (op :: tail2) in E. rewrite R in E. discriminate E. }
    destruct (G a r' eq_refl) as (u & ts2 & E1 & N & E2 & H). cbn [app] in R. change (op :: TSym (ch ";") :: [TSym (ch "}")]) with (op :: tail2).
    rewrite R. intros E. injection E as <- <-. exists u, ts2. repeat split; [exact E1|exact N|exact E2|]. intros y.
    specialize (H y). cbn [app] in H. now rewrite H.
  - cbn [app]. destruct (is_arc d op) eqn:O.
    + destruct (ident_of v) as [x|] eqn:X; [|discriminate]. destruct (read_list (ts ++ tail2)) as [[a r']|] eqn:R; [|discriminate].
      intros E. injection E as <- <-. destruct (list_cut ts a r' R) as (u & ts2 & -> & -> & H). exists (t :: op :: v :: u), ts2.
      repeat split; [discriminate|]. intros y. now rewrite H.
    + destruct (is_sym (ch "=") op) eqn:Q.
      * destruct (ident_of v) as [x|] eqn:X; [|discriminate]. intros E. injection E as <- <-. exists [t; op; v], ts. repeat split. discriminate.
      * destruct (read_list ((op :: v :: ts) ++ tail2)) as [[a r']|] eqn:R; cbn [app] in R; rewrite R; [|discriminate]. intros E. injection E as <- <-.
        destruct (G a r' eq_refl) as (u & ts2 & E1 & N & E2 & H). exists u, ts2. repeat split; [exact E1|exact N|exact E2|]. intros y. specialize (H y). cbn [app] in H. now rewrite H.
Qed.

Lemma read_statements_S n d l : (List.length l <> 1) -> read_statements (S n) d l =
  match read_statement d l with
  | Some (s, r) =>
      match read_statements n d (match r with t :: r' => if is_sym (ch ";") t then r' else r | [] => r end) with
      | Some ss => Some (s :: ss) | None => None end
  | None => None end.
Proof. destruct l as [|t [|t' l]]; [reflexivity|cbn; congruence|reflexivity]. Qed.
Lemma statements_local d : forall n ts ss, read_statements n d (ts ++ tail2) = Some ss -> parses d (ts ++ [TSym (ch ";")]) ss.
Proof.
  induction n as [|n IH]; intros ts ss E; [discriminate|].
  rewrite read_statements_S in E by (rewrite app_length; cbn; lia).
  destruct (read_statement d (ts ++ tail2)) as [[s r]|] eqn:R; [|discriminate]. destruct (statement_cut d ts s r R) as (u & ts2 & E1 & N & -> & H).
  destruct ts2 as [|t ts2].
  - cbn [app tail2] in E. change (is_sym (ch ";") (TSym (ch ";"))) with true in E. cbn iota in E. destruct n as [|n]; [discriminate|].
    change (read_statements (S n) d [TSym (ch "}")]) with (Some (@nil statement)) in E. injection E as <-. apply parses_one; [|exact H].
    subst ts. destruct u; [congruence|discriminate].
  - cbn [app] in E, H. intros m y rs Ny Ey. rewrite <- app_assoc. rewrite app_length. cbn [app List.length].
    assert (Lt : exists k, List.length ts = S k + List.length (t :: ts2)) by (subst ts; destruct u as [|x u]; [congruence|]; rewrite app_length; cbn; exists (List.length u); lia).
    destruct Lt as [k Lt]. rewrite Lt. replace (m + (S k + List.length (t :: ts2) + 1)) with (S (m + (k + List.length (t :: ts2) + 1))) by lia.
    rewrite read_statements_S by (rewrite app_length, Lt; cbn; lia). rewrite H.
    destruct (is_sym (ch ";") t) eqn:T.
    + destruct (read_statements n d (ts2 ++ tail2)) as [ss'|] eqn:R2; [|discriminate]. injection E as <-. specialize (IH ts2 ss' R2 m y rs Ny Ey).
      rewrite <- app_assoc, app_length in IH. cbn [app] in IH. erewrite statements_mono; [|exact IH|cbn; lia]. reflexivity.
    + destruct (read_statements n d (t :: ts2 ++ tail2)) as [ss'|] eqn:R2; [|discriminate]. injection E as <-. specialize (IH (t :: ts2) ss' R2 m y rs Ny Ey).
      rewrite <- app_assoc, app_length in IH. cbn [app] in IH. erewrite statements_mono; [|exact IH|cbn; lia]. reflexivity.
Qed.

(** The text [s] followed by ";" is the list of statements [ss]. *)
Definition writes (d : bool) (s : str) (ss : list statement) : Prop := exists ts, lexes (s ++ lit ";") ts /\ parses d ts ss.
Lemma style_writes d s ss : dot_style d s ss -> writes d s ss.
Proof.
  unfold dot_style, dot_read, tokens. intros E.
  assert (P : lexes (if d then lit "digraph {" else lit "graph {") [TWord (if d then lit "digraph" else lit "graph"); TSym (ch "{")]) by (destruct d; reflexivity).
  rewrite run_app, P in E. clear P. rewrite run_app in E. destruct (run_lexer MStart s) as [[t0 m0]|] eqn:R; [|discriminate].
  assert (M : exists w, run_lexer m0 (lit ";}") = Some (w ++ tail2, MStart) /\ run_lexer m0 (lit ";") = Some (w ++ [TSym (ch ";")], MStart)).
  { destruct m0; cbn in E.
    - exists []. split; reflexivity.
    - exists [TWord s0]. split; reflexivity.
    - exists [TWord s0]. split; reflexivity.
    - destruct d; discriminate.
    - destruct d; discriminate.
    - destruct d; discriminate.
    - destruct d; discriminate. }
  destruct M as (w & M1 & M2). rewrite M1 in E. cbn [prepend app] in E.
  exists ((t0 ++ w) ++ [TSym (ch ";")]). split.
  { unfold lexes. rewrite run_app, R, M2. cbn. now rewrite app_assoc. }
  replace (t0 ++ w ++ tail2) with ((t0 ++ w) ++ tail2) in E by (now rewrite app_assoc).
  assert (K : exists n, read_statements n d ((t0 ++ w) ++ tail2) = Some ss).
  { destruct d; cbn in E.
    - change (eqb _ _) with true in E. cbn iota in E.
      destruct (read_statements _ _ _) as [x|] eqn:X in E; [|discriminate E]. injection E as <-. eexists. exact X.
    - destruct (read_statements _ _ _) as [x|] eqn:X in E; [|discriminate E]. injection E as <-. eexists. exact X. }
  destruct K as [n K]. exact (statements_local d n _ ss K).
Qed.

(** ** The texts of to_dot *)
Lemma equal_ends : ends_word (ch "=").
Proof. repeat split; try discriminate. eexists. reflexivity. Qed.
Lemma space_ends : ends_word (ch " ").
Proof. repeat split; try discriminate. eexists. reflexivity. Qed.
Lemma lex_attr k v t : dot_key k -> lexes v [t] -> lexes (k ++ lit "=" ++ v) [TWord k; TSym (ch "="); t].
Proof.
  intros K V. replace (k ++ lit "=" ++ v) with ((k ++ [ch "="]) ++ v) by (now rewrite <- app_assoc).
  apply (lexes_app _ _ [TWord k; TSym (ch "=")] [t]); [|exact V]. apply lex_key; [exact K|exact equal_ends|reflexivity].
Qed.
(** [text]: the texts of the attributes; [l]: their tokens *)
Definition attr_text (text : str) (x : str * token) : Prop := lexes text [TWord (fst x); TSym (ch "="); snd x].
Lemma lex_attrs texts l : Forall2 attr_text texts l -> lexes (join (lit "; ") texts) (attr_tokens l).
Proof.
  induction 1 as [|text [k v] texts l T F IH]; [exact lexes_nil|]. unfold attr_text in T. cbn [fst snd] in T. destruct F as [|text' [k' v'] texts l T' F].
  - exact T.
  - change (join (lit "; ") (text :: text' :: texts)) with (text ++ lit "; " ++ join (lit "; ") (text' :: texts)).
    change (attr_tokens ((k, v) :: (k', v') :: l)) with ([TWord k; TSym (ch "="); v] ++ [TSym (ch ";")] ++ attr_tokens ((k', v') :: l)).
    apply lexes_app; [exact T|]. apply lexes_app; [reflexivity|exact IH].
Qed.
Lemma lex_brackets s l : lexes s l -> lexes (lit "[" ++ s ++ lit "]") (TSym (ch "[") :: l ++ [TSym (ch "]")]).
Proof. intros H. apply (lexes_app (lit "[") _ [TSym (ch "[")]); [reflexivity|]. apply lexes_app; [exact H|reflexivity]. Qed.
Lemma lex_nat u r l : lexes r l -> lexes (str_nat u ++ lit " " ++ r) (TWord (str_nat u) :: l).
Proof.
  intros H. replace (str_nat u ++ lit " " ++ r) with ((str_nat u ++ [ch " "]) ++ r) by (now rewrite <- app_assoc).
  apply (lexes_app _ _ [TWord (str_nat u)] l); [|exact H]. apply lex_num; [apply str_nat_nonempty|apply digits_nat|exact space_ends|reflexivity].
Qed.

Definition pairs_dot (l : list (str * str)) : Prop := forall k v, In (k, v) l -> dot_key k /\ dot_value v.
Lemma dx_writes d k l : pairs_dot l -> l <> [] -> writes d (graphviz_dx_to_dot (kind_word k) l) (default_statements k l).
Proof.
  intros P N. set (lt := map (fun '(k, v) => (k, TQuoted v)) l : list (str * token)). exists (TWord (kind_word k) :: list_tokens (Some lt) ++ [TSym (ch ";")]). split.
  - unfold graphviz_dx_to_dot. destruct l as [|x l]; [congruence|]. set (l0 := x :: l) in *. rewrite <- !app_assoc.
    replace (kind_word k ++ lit " [" ++ join (lit "; ") (map (fun '(k, v) => k ++ lit "=""" ++ v ++ lit """") l0) ++ lit "]" ++ lit ";")
      with ((kind_word k ++ lit " ") ++ (lit "[" ++ join (lit "; ") (map (fun '(k, v) => k ++ lit "=""" ++ v ++ lit """") l0) ++ lit "]") ++ lit ";")
      by (rewrite <- !app_assoc; reflexivity).
    apply (lexes_app _ _ [TWord (kind_word k)]); [destruct k; reflexivity|]. apply lexes_app; [|reflexivity]. apply lex_brackets. apply lex_attrs.
    subst lt. clearbody l0. clear N. induction l0 as [|[a b] l0 IH]; cbn [map]; constructor.
    + unfold attr_text. cbn [fst snd]. destruct (P a b (or_introl eq_refl)) as [A B]. exact (lex_attr a (lit """" ++ b ++ lit """") (TQuoted b) A (lex_quoted b B)).
    + apply IH. intros k' v' I. apply P. now right.
  - unfold default_statements. destruct l as [|x l]; [congruence|]. set (l0 := x :: l) in *. apply parses_default. subst lt. clearbody l0. clear N.
    induction l0 as [|[a b] l0 IH]; cbn [map]; constructor.
    + destruct (P a b (or_introl eq_refl)) as [A B]. repeat split. exact A.
    + apply IH. intros k' v' I. apply P. now right.
Qed.

Section Items.
  Variable tags : list str.
  Hypothesis tags_perm : Permutation tags GRAPHVIZ_SUPPORTED_HTML_TAGS.

  Definition item_dot {X} (x : X) (l : list (str * (X -> option str))) : Prop := forall k p v, In (k, p) l -> p x = Some v ->
    dot_key k /\ (k = lit "label" -> dot_label v) /\ (k <> lit "label" -> dot_value v).
  Lemma props_lex {X} (x : X) l : item_dot x l -> exists lt a, lexes (graphviz_properties_to_str tags x l) (list_tokens lt) /\ good_list lt a /\ attributes_of x l a.
  Proof.
    intros P. assert (H : exists texts lt a, flat_map (fun '(k, pmap) => match pmap x with None => [] | Some v =>
        [if eqb k (lit "label") then k ++ lit "=<" ++ graphviz_escape_html tags v ++ lit ">" else k ++ lit "=""" ++ v ++ lit """"] end) l = texts /\
        Forall2 attr_text texts lt /\ Forall2 good_attr lt a /\ attributes_of x l a).
    { induction l as [|[k p] l IH]; [exists [], [], []; repeat split; constructor|].
      destruct IH as (texts & lt & a & E & A & G & O). { intros k' p' v I. apply P. now right. }
      cbn [flat_map]. rewrite E. clear E. destruct (p x) as [v|] eqn:V.
      2:{ exists texts, lt, a. repeat split; try assumption. now apply at_none. }
      destruct (P k p v (or_introl eq_refl) V) as (K & L & Q). destruct (BaseProofs.eqb_spec k (lit "label")) as [->|N].
      - destruct (escapes_total tags tags_perm v) as [pieces PE]. rewrite (escape_escapes tags tags_perm v pieces PE).
        exists ((lit "label" ++ lit "=<" ++ concat (map snd pieces) ++ lit ">") :: texts), ((lit "label", THtml (concat (map snd pieces))) :: lt),
          ((Name (lit "label"), Html (concat (map snd pieces))) :: a).
        repeat split.
        + constructor; [|exact A]. exact (lex_attr (lit "label") (lit "<" ++ concat (map snd pieces) ++ lit ">") _ K (lex_html _ (balanced_label v pieces (L eq_refl) PE))).
        + constructor; [|exact G]. repeat split. exact K.
        + now apply at_label with v.
      - exists ((k ++ lit "=""" ++ v ++ lit """") :: texts), ((k, TQuoted v) :: lt), ((Name k, Name v) :: a). repeat split.
        + constructor; [|exact A]. exact (lex_attr k (lit """" ++ v ++ lit """") _ K (lex_quoted v (Q N))).
        + constructor; [|exact G]. repeat split. exact K.
        + now apply at_some. }
    destruct H as (texts & lt & a & E & A & G & O). unfold graphviz_properties_to_str. destruct l as [|y l].
    - exists None, a. split; [exact lexes_nil|]. split; [|exact O]. inversion O. reflexivity.
    - rewrite E. exists (Some lt), a. split; [|split; [exact G|exact O]]. apply lex_brackets, lex_attrs, A.
  Qed.
  Lemma vertex_writes d u l : item_dot u l -> exists a, writes d (vertex_to_graphviz tags u l) [SNode (Name (str_nat u)) a] /\ attributes_of u l a.
  Proof.
    intros P. destruct (props_lex u l P) as (lt & a & X & G & O). exists a. split; [|exact O].
    exists (TWord (str_nat u) :: list_tokens lt ++ [TSym (ch ";")]). split; [|now apply parses_node].
    unfold vertex_to_graphviz. cbn [join]. rewrite <- !app_assoc. apply lex_nat. apply lexes_app; [exact X|reflexivity].
  Qed.
  Lemma edge_writes {D} d (e : edge D) l : item_dot e l -> exists a, writes d (edge_to_graphviz tags d e l) [SEdge (Name (str_nat (source e))) (Name (str_nat (target e))) a] /\
    attributes_of e l a.
  Proof.
    intros P. destruct (props_lex e l P) as (lt & a & X & G & O). exists a. split; [|exact O].
    exists (TWord (str_nat (source e)) :: (if d then TArrow else TLine) :: TWord (str_nat (target e)) :: list_tokens lt ++ [TSym (ch ";")]).
    split; [|now apply parses_edge]. unfold edge_to_graphviz. cbn [join]. rewrite <- !app_assoc. apply lex_nat.
    rewrite app_assoc. apply (lexes_app _ _ [if d then TArrow else TLine]); [destruct d; reflexivity|]. apply lex_nat. apply lexes_app; [exact X|reflexivity].
  Qed.
End Items.

Lemma join_writes d instrs sss : Forall2 (writes d) instrs sss -> instrs <> [] ->
  exists ts, lexes (join (lit ";" ++ 10%N :: lit "  ") instrs ++ lit ";") ts /\ parses d ts (concat sss).
Proof.
  induction 1 as [|s ss instrs sss (ts & A & B) F IH]; intros N; [congruence|]. destruct F as [|s' ss' instrs sss W F].
  - cbn [concat]. rewrite app_nil_r. now exists ts.
  - destruct IH as (ts' & A' & B'); [discriminate|]. exists (ts ++ ts'). split; [|now apply (parses_app d ts ts' ss)].
    change (join (lit ";" ++ 10%N :: lit "  ") (s :: s' :: instrs)) with (s ++ (lit ";" ++ 10%N :: lit "  ") ++ join (lit ";" ++ 10%N :: lit "  ") (s' :: instrs)).
    rewrite <- !app_assoc. rewrite app_assoc. apply lexes_app; [exact A|]. apply (lexes_app (10%N :: lit "  ") _ []); [reflexivity|exact A'].
Qed.
Definition body_of (instrs : list str) : str :=
  match instrs with [] => [] | _ => 10%N :: lit "  " ++ join (lit ";" ++ 10%N :: lit "  ") instrs ++ lit ";" ++ [10%N] end.
Lemma instructions_read d instrs sss : Forall2 (writes d) instrs sss ->
  dot_read (graphviz_type d ++ lit " G {" ++ body_of instrs ++ lit "}") = Some (Dot d (Some (Name (lit "G"))) (concat sss)).
Proof.
  intros F. assert (H : exists ts, lexes (body_of instrs) ts /\ parses d ts (concat sss)).
  { destruct F as [|s ss instrs sss W F]; [exists []; split; [exact lexes_nil|apply parses_nil]|].
    destruct (join_writes d (s :: instrs) (ss :: sss)) as (ts & A & B); [now constructor|discriminate|]. exists ts. split; [|exact B].
    apply (lexes_app (10%N :: lit "  ") _ []); [reflexivity|]. rewrite app_assoc. rewrite <- (app_nil_r ts). apply lexes_app; [exact A|reflexivity]. }
  destruct H as (ts & A & B). generalize dependent (body_of instrs). intros body A.
  assert (T : lexes (graphviz_type d ++ lit " G {" ++ body ++ lit "}") ([TWord (graphviz_type d); TWord (lit "G"); TSym (ch "{")] ++ ts ++ [TSym (ch "}")])).
  { rewrite app_assoc. apply lexes_app; [destruct d; reflexivity|]. apply lexes_app; [exact A|reflexivity]. }
  apply lexes_tokens in T. specialize (B 1 [TSym (ch "}")] [] ltac:(discriminate) eq_refl). rewrite app_nil_r in B.
  replace (1 + length ts) with (length (ts ++ [TSym (ch "}")])) in B by (rewrite app_length; cbn; lia).
  unfold dot_read. rewrite T. cbn [app]. destruct d; unfold graphviz_type.
  - change (eqb (map lower (lit "digraph")) (lit "digraph")) with true. cbn iota.
    change (ident_of (TWord (lit "G"))) with (Some (Name (lit "G"))). cbn iota. change (is_sym (ch "{") (TSym (ch "{"))) with true. cbn iota. now rewrite B.
  - change (eqb (map lower (lit "graph")) (lit "digraph")) with false. change (eqb (map lower (lit "graph")) (lit "graph")) with true. cbn iota.
    change (ident_of (TWord (lit "G"))) with (Some (Name (lit "G"))). cbn iota. change (is_sym (ch "{") (TSym (ch "{"))) with true. cbn iota. now rewrite B.
Qed.
