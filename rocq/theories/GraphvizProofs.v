(** Lemmas on the escaping of labels. *)
From Coq Require Import String.
From Verif Require Import Str ShuntingYard SYProofs Regexp Graph Graphviz GraphvizSpec.
From Verif Require Import Base BaseProofs.
Open Scope string_scope.
Open Scope nat_scope.
Open Scope list_scope.

(** ** Spaces *)
Lemma span_cut p s : exists u v, span p s = (u, v) /\ s = u ++ v /\ Forall (fun c => p c = true) u /\
  match v with [] => True | c :: _ => p c = false end.
Proof.
  induction s as [|c s (u & v & E & -> & F & H)]; [exists [], []; repeat split; constructor|]. cbn [span]. destruct (p c) eqn:Ec.
  - rewrite E. exists (c :: u), v. repeat split; auto.
  - exists [], (c :: u ++ v). repeat split; auto.
Qed.
Lemma span_here (p : char -> bool) u v : Forall (fun c => p c = true) u -> match v with [] => True | c :: _ => p c = false end ->
  span p (u ++ v) = (u, v).
Proof.
  intros F H. induction F as [|c u Hc F IH]; cbn; [|rewrite Hc, IH; reflexivity]. destruct v as [|c v]; cbn; [reflexivity|]. rewrite H. reflexivity.
Qed.
Lemma skip_cut s : exists ws, s = ws ++ skip_spaces s /\ spaces ws /\ match skip_spaces s with [] => True | c :: _ => isspace c = false end.
Proof. unfold skip_spaces. destruct (span_cut isspace s) as (u & v & E & Es & F & H). rewrite E. exists u. auto. Qed.
Lemma skip_here ws v : spaces ws -> match v with [] => True | c :: _ => isspace c = false end -> skip_spaces (ws ++ v) = v.
Proof. intros F H. unfold skip_spaces. rewrite span_here by assumption. reflexivity. Qed.
Lemma gt_notspace : isspace (ch ">") = false.
Proof. reflexivity. Qed.

(** ** Names *)
Definition tag_char (a : char) : Prop := (97 <= a <= 122)%N \/ a = 47%N.
Definition tag_ok (tag : str) : Prop := tag <> [] /\ Forall tag_char tag.

Lemma same_letter_spec c a : tag_char a -> (ignorecase c = a <-> same_letter c a).
Proof.
  intros Ha. unfold ignorecase, same_letter. change (ch "i") with 105%N. change (ch "s") with 115%N.
  destruct ((65 <=? c) && (c <=? 90))%N eqn:E1.
  { apply andb_true_iff in E1. rewrite !N.leb_le in E1. unfold tag_char in Ha. split; [intros <-; tauto|].
    intros [-> | [(_ & X) | [(-> & [-> | ->]) | (-> & ->)]]]; try lia; exact X. }
  assert (NU : ~ (65 <= c <= 90)%N). { intros (X & Y). apply N.leb_le in X, Y. rewrite X, Y in E1. discriminate. }
  destruct (mem_reflect c [304; 305]%N) as [I|I].
  { cbn in I. unfold tag_char in Ha. destruct I as [<-|[<-|[]]].
    all: split; [intros <-; tauto|]; intros [<- | [(X & _) | [(-> & _) | (_ & X)]]]; try reflexivity; try lia. }
  cbn in I. destruct (eqb_spec c 383%N) as [->|N].
  { unfold tag_char in Ha. split; [intros <-; tauto|]; intros [<- | [(X & _) | [(_ & [X|X]) | (-> & _)]]]; try reflexivity; lia. }
  split; [intros ->; tauto|]. intros [-> | [(X & _) | [(-> & [-> | ->]) | (-> & ->)]]]; tauto.
Qed.
Lemma same_letter_notspace c a : tag_char a -> same_letter c a -> isspace c = false /\ c <> ch ">".
Proof.
  intros Ha H. unfold same_letter in H. change (ch "i") with 105%N in H. change (ch "s") with 115%N in H. unfold tag_char in Ha.
  change (ch ">") with 62%N.
  assert (X : (65 <= c <= 90)%N \/ (97 <= c <= 122)%N \/ c = 47%N \/ c = 304%N \/ c = 305%N \/ c = 383%N) by (destruct H as [-> | [(X & _) | [(_ & [-> | ->]) | (_ & ->)]]]; tauto).
  split; [|lia]. unfold isspace. apply orb_false_iff. split; [apply mem_false; cbn; lia|]. apply andb_false_iff. rewrite !N.leb_gt. lia.
Qed.
Lemma match_name_spec tag s r : Forall tag_char tag ->
  (match_name tag s = Some r <-> exists t, s = t ++ r /\ same_name t tag).
Proof.
  intros F. revert s. induction F as [|a tag Ha F IH]; intros s; cbn [match_name].
  - split; [intros E; exists []; inversion E; subst; split; [reflexivity|constructor]|].
    intros (t & -> & S). inversion S; subst. reflexivity.
  - destruct s as [|c s].
    + split; [discriminate|]. intros (t & E & S). inversion S; subst. discriminate.
    + destruct (eqb_spec (ignorecase c) a) as [E|E].
      * rewrite IH. split.
        -- intros (t & -> & S). exists (c :: t). split; [reflexivity|]. constructor; [apply same_letter_spec; assumption|exact S].
        -- intros (t & E' & S). inversion S as [|x a' t' tag' X S']; subst. cbn in E'. injection E' as -> ->. exists t'. auto.
      * split; [discriminate|]. intros (t & E' & S). inversion S as [|x a' t' tag' X S']; subst. cbn in E'. injection E' as -> ->.
        destruct E. apply same_letter_spec; assumption.
Qed.

Lemma match_close_spec s r : match_close s = Some r <-> exists ws, spaces ws /\ s = ws ++ ch ">" :: r.
Proof.
  unfold match_close. split.
  - intros E. destruct (skip_cut s) as (ws & Es & S & _). destruct (skip_spaces s) as [|c s']; [discriminate|].
    destruct (eqb_spec c (ch ">")) as [->|]; [|discriminate]. injection E as ->. eauto.
  - intros (ws & S & ->). rewrite skip_here by (assumption || reflexivity). rewrite eqb_refl. reflexivity.
Qed.

(** ** Tags *)
Definition tail_form (tag rest : str) : Prop :=
  if eqb (hd 0%N tag) (ch "/") then spaces rest
  else rest = [] \/ exists c r, rest = c :: r /\ isspace c = true /\ ~ In (ch ">") r.
Definition tag_form (tag t : str) : Prop := exists ws s rest, t = lit "<" ++ ws ++ s ++ rest ++ lit ">" /\
  spaces ws /\ same_name s tag /\ tail_form tag rest.

Lemma spaces_tail ws : spaces ws -> ws = [] \/ exists c r, ws = c :: r /\ isspace c = true /\ ~ In (ch ">") r.
Proof.
  intros F. destruct F as [|c r Hc F]; [left; reflexivity|]. right. exists c, r. split; [reflexivity|]. split; [exact Hc|]. intros I. unfold spaces in F.
  rewrite Forall_forall in F. apply F in I. discriminate I.
Qed.
Lemma nogt_Forall r : ~ In (ch ">") r <-> Forall (fun x => negb (eqb x (ch ">")) = true) r.
Proof.
  rewrite Forall_forall. split.
  - intros N x I. destruct (eqb_spec x (ch ">")) as [->|]; [contradiction|reflexivity].
  - intros H I. apply H in I. discriminate I.
Qed.

Lemma match_tag_spec tag s r : tag_ok tag ->
  (match_tag tag s = Some r <-> exists t, s = t ++ r /\ tag_form tag t).
Proof.
  intros (NE & F). unfold match_tag, tag_form, tail_form. split.
  - destruct s as [|c s1]; [discriminate|]. destruct (eqb_spec c (ch "<")) as [->|]; [|discriminate].
    destruct (skip_cut s1) as (ws & E1 & S1 & _). destruct (match_name tag (skip_spaces s1)) as [s2|] eqn:EN; [|discriminate].
    apply match_name_spec in EN; [|exact F]. destruct EN as (nm & EN & SN). rewrite EN in E1. subst s1. clear EN.
    assert (Fin : forall rest, s2 = rest ++ ch ">" :: r -> ch "<" :: ws ++ nm ++ s2 = (lit "<" ++ ws ++ nm ++ rest ++ lit ">") ++ r).
    { intros rest ->. change (lit "<") with [ch "<"]. change (lit ">") with [ch ">"]. cbn [app]. f_equal. rewrite <- !app_assoc. reflexivity. }
    destruct (eqb (hd 0%N tag) (ch "/")).
    + intros E. apply match_close_spec in E. destruct E as (ws' & S' & E). eexists. split; [apply Fin, E|]. exists ws, nm, ws'. auto.
    + assert (Close : match_close s2 = Some r -> exists t, ch "<" :: ws ++ nm ++ s2 = t ++ r /\
        exists ws s rest, t = lit "<" ++ ws ++ s ++ rest ++ lit ">" /\ spaces ws /\ same_name s tag /\
          (rest = [] \/ exists c r, rest = c :: r /\ isspace c = true /\ ~ In (ch ">") r)).
      { intros E. apply match_close_spec in E. destruct E as (ws' & S' & E). eexists. split; [apply Fin, E|]. exists ws, nm, ws'. apply spaces_tail in S'. auto. }
      destruct s2 as [|d s3]; [exact Close|]. destruct (isspace d) eqn:Ed; [|exact Close].
      destruct (span_cut (fun x => negb (eqb x (ch ">"))) s3) as (u & v & E & E3 & Fu & Hv). rewrite E. cbn [snd].
      destruct (match_close v) as [s4|] eqn:E4; [|exact Close]. intros [= ->]. apply match_close_spec in E4. destruct E4 as (ws' & S' & ->).
      subst s3. eexists. split; [apply (Fin (d :: u ++ ws')); cbn [app]; rewrite <- app_assoc; reflexivity|].
      exists ws, nm, (d :: u ++ ws'). repeat split; auto. right. exists d, (u ++ ws'). split; [reflexivity|]. split; [exact Ed|].
      rewrite in_app_iff. intros [I|I]; [apply nogt_Forall in I; assumption|]. unfold spaces in S'. rewrite Forall_forall in S'. apply S' in I. discriminate I.
  - intros (t & -> & ws & nm & rest & -> & S1 & SN & T). change (lit "<") with [ch "<"]. change (lit ">") with [ch ">"]. cbn [app]. rewrite eqb_refl.
    assert (HS : skip_spaces ((ws ++ nm ++ rest ++ [ch ">"]) ++ r) = nm ++ rest ++ ch ">" :: r).
    { rewrite <- !app_assoc. cbn [app]. apply skip_here; [exact S1|]. destruct tag as [|a tag]; [destruct (NE eq_refl)|].
      inversion SN as [|c a' nm' tag' X SN']; subst. cbn [app]. apply (same_letter_notspace c a); [|exact X]. apply Forall_cons_iff in F. apply F. }
    rewrite HS.
    assert (HN : match_name tag (nm ++ rest ++ ch ">" :: r) = Some (rest ++ ch ">" :: r)) by (apply match_name_spec; [exact F|]; exists nm; auto).
    rewrite HN. destruct (eqb (hd 0%N tag) (ch "/")); [apply match_close_spec; eauto|]. destruct T as [-> | (c & r0 & -> & Hc & NG)].
    + cbn [app]. rewrite gt_notspace. apply match_close_spec. exists []. split; [constructor|reflexivity].
    + cbn [app]. rewrite Hc. rewrite (span_here (fun x => negb (eqb x (ch ">"))) r0); [|apply nogt_Forall; exact NG|reflexivity]. cbn [snd].
      assert (X : match_close (ch ">" :: r) = Some r) by (apply match_close_spec; exists []; split; [constructor|reflexivity]). rewrite X. reflexivity.
Qed.

Lemma tags_ok tag : In tag GRAPHVIZ_SUPPORTED_HTML_TAGS -> tag_ok tag.
Proof.
  intros I. assert (X : Forall tag_ok GRAPHVIZ_SUPPORTED_HTML_TAGS).
  { unfold GRAPHVIZ_SUPPORTED_HTML_TAGS. repeat (constructor; [split; [discriminate|repeat (constructor; [unfold tag_char; cbn; lia|]); constructor]|]). constructor. }
  rewrite Forall_forall in X. auto.
Qed.
Lemma tags_split tag : In tag GRAPHVIZ_SUPPORTED_HTML_TAGS ->
  (eqb (hd 0%N tag) (ch "/") = true /\ exists name, tag = lit "/" ++ name /\ In name closing) \/
  (eqb (hd 0%N tag) (ch "/") = false /\ In tag opening).
Proof.
  assert (X : forall l, forallb (fun tag => if eqb (hd 0%N tag) (ch "/") then mem (tl tag) closing else mem tag opening) l = true ->
    In tag l -> (eqb (hd 0%N tag) (ch "/") = true /\ exists name, tag = lit "/" ++ name /\ In name closing) \/
  (eqb (hd 0%N tag) (ch "/") = false /\ In tag opening)).
  { intros l H I. rewrite forallb_forall in H. specialize (H tag I). destruct (eqb (hd 0%N tag) (ch "/")) eqn:E.
    - left. split; [reflexivity|]. exists (tl tag). split; [|apply mem_spec; exact H]. destruct tag as [|a tag]; [vm_compute in E; discriminate E|]. cbn [hd] in E.
      apply (proj1 (eqb_eq _ _)) in E. subst a. reflexivity.
    - right. split; [reflexivity|]. apply mem_spec. exact H. }
  apply X. vm_compute. reflexivity.
Qed.
Lemma opening_tag name : In name opening -> In name GRAPHVIZ_SUPPORTED_HTML_TAGS /\ eqb (hd 0%N name) (ch "/") = false.
Proof.
  intros I. assert (X : forallb (fun n => mem n GRAPHVIZ_SUPPORTED_HTML_TAGS && negb (eqb (hd 0%N n) (ch "/"))) opening = true) by (vm_compute; reflexivity).
  rewrite forallb_forall in X. apply X in I. apply andb_true_iff in I. destruct I as (I1 & I2). split; [apply mem_spec; exact I1|]. apply negb_true_iff. exact I2.
Qed.
Lemma closing_tag name : In name closing -> In (lit "/" ++ name) GRAPHVIZ_SUPPORTED_HTML_TAGS.
Proof.
  intros I. assert (X : forallb (fun n => mem (lit "/" ++ n) GRAPHVIZ_SUPPORTED_HTML_TAGS) closing = true) by (vm_compute; reflexivity).
  rewrite forallb_forall in X. apply X in I. apply mem_spec. exact I.
Qed.
Lemma html_tag_form t : html_tag t <-> exists tag, In tag GRAPHVIZ_SUPPORTED_HTML_TAGS /\ tag_form tag t.
Proof.
  split.
  - intros [ws s name rest S I N T|ws s name ws' S I N S'].
    + apply opening_tag in I. destruct I as (I & E). exists name. split; [exact I|]. exists ws, s, rest. unfold tail_form. rewrite E. auto.
    + apply closing_tag in I. exists (lit "/" ++ name). split; [exact I|]. exists ws, s, ws'. repeat split; auto.
  - intros (tag & I & ws & s & rest & -> & S & N & T). unfold tail_form in T. apply tags_split in I. destruct I as [(E & name & -> & I)|(E & I)]; rewrite E in T.
    + eapply tag_close; eassumption.
    + eapply tag_open; eassumption.
Qed.

(** A tag ends at its only [>]. *)
Lemma html_tag_gt t : html_tag t -> exists u, t = u ++ [ch ">"] /\ ~ In (ch ">") u.
Proof.
  intros H. apply html_tag_form in H. destruct H as (tag & I & ws & s & rest & -> & S & N & T). apply tags_ok in I. destruct I as (_ & F).
  exists (lit "<" ++ ws ++ s ++ rest). split; [rewrite <- !app_assoc; reflexivity|]. rewrite !in_app_iff. intros [X|[X|[X|X]]].
  - cbn in X. destruct X as [X|[]]. discriminate X.
  - unfold spaces in S. rewrite Forall_forall in S. apply S in X. discriminate X.
  - clear - N F X. induction N as [|c a s tag Hc N IH]; [destruct X|]. apply Forall_cons_iff in F. destruct F as (Ha & F).
    destruct X as [X|X]; [|auto]. destruct (same_letter_notspace c a Ha Hc) as (_ & Y). auto.
  - unfold tail_form in T. destruct (eqb _ _).
    + unfold spaces in T. rewrite Forall_forall in T. apply T in X. discriminate X.
    + destruct T as [-> | (c & r & -> & Hc & NG)]; [destruct X|]. destruct X as [->|X]; [discriminate Hc|contradiction].
Qed.
Lemma html_tag_lt t : html_tag t -> exists u, t = ch "<" :: u.
Proof. intros H. destruct H; eexists; reflexivity. Qed.
Lemma cut_unique (x : char) u u' r r' : ~ In x u -> ~ In x u' -> u ++ x :: r = u' ++ x :: r' -> u = u' /\ r = r'.
Proof.
  revert u'. induction u as [|c u IH]; intros [|c' u'] N N' E; cbn in E.
  - injection E as ->. auto.
  - injection E as -> _. destruct N'. left. reflexivity.
  - injection E as -> _. destruct N. left. reflexivity.
  - injection E as -> E. destruct (IH u') as (-> & ->); auto; intros I; [apply N|apply N']; right; exact I.
Qed.
Lemma html_tag_unique t t' r r' : html_tag t -> html_tag t' -> t ++ r = t' ++ r' -> t = t' /\ r = r'.
Proof.
  intros H H' E. destruct (html_tag_gt t H) as (u & -> & N). destruct (html_tag_gt t' H') as (u' & -> & N'). rewrite <- !app_assoc in E. cbn [app] in E.
  destruct (cut_unique _ _ _ _ _ N N' E) as (-> & ->). auto.
Qed.

Section Escape.
  Variable tags : list str.
  Hypothesis Htags : Permutation tags GRAPHVIZ_SUPPORTED_HTML_TAGS.

  Lemma match_html_some s n : match_html tags s = Some n <-> exists t r, s = t ++ r /\ html_tag t /\ n = List.length t.
  Proof.
    assert (G : forall n l, incl l GRAPHVIZ_SUPPORTED_HTML_TAGS -> match_html l s = Some n -> exists t r, s = t ++ r /\ html_tag t /\ n = List.length t).
    { clear n. intros n. induction l as [|tag l IH]; intros L E; [discriminate|]. cbn in E. destruct (match_tag tag s) as [r|] eqn:M.
      - apply match_tag_spec in M; [|apply tags_ok, L; left; reflexivity]. destruct M as (t & -> & T). exists t, r. split; [reflexivity|]. split.
        + apply html_tag_form. exists tag. split; [apply L; left; reflexivity|exact T].
        + injection E as <-. rewrite app_length. lia.
      - apply IH; [|exact E]. intros x I. apply L. right. exact I. }
    assert (K : forall l, incl l GRAPHVIZ_SUPPORTED_HTML_TAGS -> forall t r tag, s = t ++ r -> In tag l -> tag_form tag t -> match_html l s <> None).
    { induction l as [|tag' l IH]; intros L t r tag Es I T; [destruct I|]. cbn. destruct (match_tag tag' s) as [r'|] eqn:M; [discriminate|].
      destruct I as [->|I].
      - assert (X : match_tag tag s = Some r) by (apply match_tag_spec; [apply tags_ok, L; left; reflexivity|eauto]). congruence.
      - apply (IH (fun x J => L x (or_intror J)) t r tag Es I T). }
    assert (L : incl tags GRAPHVIZ_SUPPORTED_HTML_TAGS) by (intros x; apply Permutation_in; exact Htags).
    split; [apply G; exact L|]. intros (t & r & Es & H & ->). destruct (match_html tags s) as [n'|] eqn:E.
    - destruct (G n' tags L E) as (t' & r' & Es' & H' & ->). rewrite Es in Es'. destruct (html_tag_unique t t' r r' H H' Es') as (-> & _). reflexivity.
    - apply html_tag_form in H. destruct H as (tag & I & T). destruct (K tags L t r tag Es); auto. apply Permutation_in with (2 := I). symmetry. exact Htags.
  Qed.
  Lemma match_html_none s : match_html tags s = None <-> forall t r, s = t ++ r -> ~ html_tag t.
  Proof.
    split.
    - intros E t r Es H. assert (X : match_html tags s = Some (List.length t)) by (apply match_html_some; eauto). congruence.
    - intros H. destruct (match_html tags s) as [n|] eqn:E; [|reflexivity]. apply match_html_some in E. destruct E as (t & r & Es & Ht & _). destruct (H t r Es Ht).
  Qed.

  Definition piece_out (x : bool * str) : str := if fst x then snd x else flat_map graphviz_escape_char (snd x).
  Lemma escape_pieces s l : segs (match_html tags) [] s l -> graphviz_escape_html tags s = flat_map piece_out l.
  Proof.
    intros S. apply segs_finditer in S. rewrite <- S. clear S. unfold graphviz_escape_html. induction (tokenize (finditer (match_html tags) s) s) as [|e es IH]; [reflexivity|].
    cbn [map flat_map]. rewrite IH. f_equal. destruct e; reflexivity.
  Qed.
  Lemma piece_flush p : flat_map piece_out (flushp p) = flat_map graphviz_escape_char p.
  Proof. destruct p; [reflexivity|]. cbn [flushp flat_map]. rewrite app_nil_r. reflexivity. Qed.

  (** Special characters *)
  Definition specials : list char := lit "&<>[]{}" ++ map N.of_nat (seq 0 32).
  Lemma specials_spec c : special c <-> In c specials.
  Proof.
    unfold special, specials. rewrite in_app_iff, in_map_iff. split; (intros [X|X]; [left; exact X|right]).
    - exists (N.to_nat c). split; [apply N2Nat.id|]. apply in_seq. lia.
    - destruct X as (n & <- & I). apply in_seq in I. lia.
  Qed.
  Lemma specials_all (P : char -> bool) : forallb P specials = true -> forall c, special c -> P c = true.
  Proof. intros F c S. apply specials_spec in S. rewrite forallb_forall in F. auto. Qed.
  Lemma escape_special c : special c -> graphviz_escape_char c = code_of c.
  Proof.
    intros S. apply (specials_all (fun c => eqb (graphviz_escape_char c) (code_of c))) in S; [|vm_compute; reflexivity]. revert S.
    destruct (eqb_spec (graphviz_escape_char c) (code_of c)); [intros _; assumption|discriminate].
  Qed.
  Lemma escape_plain c : ~ special c -> graphviz_escape_char c = [c].
  Proof.
    intros S. unfold graphviz_escape_char. destruct (dget GRAPHVIZ_MAP_CHAR_ESCAPED c) as [x|] eqn:E.
    - destruct S. apply dget_Some_key in E. cbn in E. unfold special. cbn.
      repeat (destruct E as [<-|E]; [first [right; reflexivity|left; tauto]|]). destruct E.
    - destruct (N.ltb_spec c 32) as [L|L]; [|reflexivity]. destruct S. right. exact L.
  Qed.

  Lemma escapes_out s l : escapes s l -> forall p, exists l', segs (match_html tags) p s l' /\
    flat_map piece_out l' = flat_map graphviz_escape_char p ++ concat (map snd l).
  Proof.
    induction 1 as [|t s l T _ IH|c s l N S _ IH|c s l S _ IH]; intros p.
    - exists (flushp p). split; [constructor|]. rewrite piece_flush. cbn. rewrite app_nil_r. reflexivity.
    - destruct (IH []) as (l' & S' & E'). exists (flushp p ++ (true, t) :: l'). split.
      + apply segs_matched; [|apply match_html_some; eauto|exact S']. destruct (html_tag_lt t T) as (u & ->). discriminate.
      + rewrite flat_map_app, piece_flush. apply f_equal2; [reflexivity|]. cbn [flat_map map concat snd]. apply f_equal2; [reflexivity|exact E'].
    - destruct (IH (p ++ [c])) as (l' & S' & E'). exists l'. split; [apply segs_unmatched; [apply match_html_none; exact N|exact S']|].
      transitivity (flat_map graphviz_escape_char (p ++ [c]) ++ concat (map snd l)); [exact E'|].
      rewrite flat_map_app, <- app_assoc. cbn [flat_map map snd concat]. rewrite app_nil_r, escape_special by exact S. reflexivity.
    - destruct (IH (p ++ [c])) as (l' & S' & E'). exists l'. split; [apply segs_unmatched; [apply match_html_none|exact S']|].
      + intros t r E T. destruct (html_tag_lt t T) as (u & ->). cbn in E. injection E as -> _. apply S. left. cbn. tauto.
      + transitivity (flat_map graphviz_escape_char (p ++ [c]) ++ concat (map snd l)); [exact E'|].
        rewrite flat_map_app, <- app_assoc. cbn [flat_map map snd concat]. rewrite app_nil_r, escape_plain by exact S. reflexivity.
  Qed.
  Lemma special_dec c : {special c} + {~ special c}.
  Proof. destruct (mem c specials) eqn:E; [left|right]; rewrite specials_spec; [apply mem_spec|apply mem_false]; exact E. Qed.
  Lemma escapes_total s : exists l, escapes s l.
  Proof.
    remember (List.length s) as n eqn:En. revert s En. induction n as [n IH] using (well_founded_induction lt_wf). intros s ->.
    destruct (match_html tags s) as [k|] eqn:M.
    - apply match_html_some in M. destruct M as (t & r & -> & T & _). destruct (IH (List.length r)) with (s := r) as (l & E); [|reflexivity|].
      + destruct (html_tag_lt t T) as (u & ->). rewrite app_length. cbn. lia.
      + exists ((true, t) :: l). constructor; assumption.
    - destruct s as [|c s]; [exists []; constructor|]. rewrite match_html_none in M. destruct (IH (List.length s)) with (s := s) as (l & E); [cbn; lia|reflexivity|].
      destruct (special_dec c); eexists; [apply esc_special|apply esc_plain]; eassumption.
  Qed.
  Lemma escape_escapes s l : escapes s l -> graphviz_escape_html tags s = concat (map snd l).
  Proof.
    intros E. destruct (escapes_out s l E []) as (l' & S & E'). rewrite (escape_pieces s l' S). exact E'.
  Qed.
End Escape.

Lemma escapes_det s l l' : escapes s l -> escapes s l' -> l = l'.
Proof.
  intros E. revert l'. induction E as [|t s l T _ IH|c s l N S _ IH|c s l S _ IH]; intros l' E'.
  - inversion E' as [|t s0 l0 T' E0 Es| |]; subst; [reflexivity|]. destruct (html_tag_lt t T') as (u & ->). discriminate.
  - remember (t ++ s) as w eqn:Ew. destruct E' as [|t' s' l' T' E'|c s' l' N' S' E'|c s' l' S' E'].
    + destruct (html_tag_lt t T) as (u & ->). discriminate.
    + destruct (html_tag_unique t t' s s' T T' (eq_sym Ew)) as (-> & ->). rewrite (IH l' E'). reflexivity.
    + destruct (N' t s Ew T).
    + destruct (html_tag_lt t T) as (u & ->). cbn in Ew. injection Ew as -> _. destruct S'. left. cbn. tauto.
  - remember (c :: s) as w eqn:Ew. destruct E' as [|t' s' l' T' E'|c' s' l' N' S' E'|c' s' l' S' E'].
    + discriminate.
    + destruct (N t' s' eq_refl T').
    + injection Ew as -> ->. rewrite (IH l' E'). reflexivity.
    + injection Ew as -> ->. contradiction.
  - remember (c :: s) as w eqn:Ew. destruct E' as [|t' s' l' T' E'|c' s' l' N' S' E'|c' s' l' S' E'].
    + discriminate.
    + destruct (html_tag_lt t' T') as (u & ->). cbn in Ew. injection Ew as <- _. destruct S. left. cbn. tauto.
    + injection Ew as -> ->. contradiction.
    + injection Ew as -> ->. rewrite (IH l' E'). reflexivity.
Qed.

(** Outside the tags *)
Definition clean (c : char) : Prop := ~ In c (lit "<>[]{}") /\ (32 <= c)%N.
Lemma code_clean c : special c -> Forall clean (code_of c).
Proof.
  intros S. apply (specials_all (fun c => forallb (fun x => negb (mem x (lit "<>[]{}")) && (32 <=? x)%N) (code_of c))) in S; [|vm_compute; reflexivity].
  rewrite forallb_forall in S. apply Forall_forall. intros x I. apply S in I. apply andb_true_iff in I. destruct I as (A & B).
  split; [|apply N.leb_le; exact B]. apply negb_true_iff in A. apply mem_false. exact A.
Qed.
Lemma escapes_clean s l : escapes s l -> Forall (fun x : bool * str => if fst x then html_tag (snd x) else Forall clean (snd x)) l.
Proof.
  induction 1 as [|t s l T _ IH|c s l N S _ IH|c s l S _ IH]; constructor; try exact IH; cbn [fst snd].
  - exact T.
  - apply code_clean. exact S.
  - constructor; [|constructor]. split.
    + intros I. apply S. left. cbn in *. tauto.
    + destruct (N.le_gt_cases 32 c) as [L|L]; [exact L|]. destruct S. right. exact L.
Qed.
Lemma code_length c : special c -> 1 < List.length (code_of c).
Proof.
  intros S. apply (specials_all (fun c => 1 <? List.length (code_of c))) in S; [|vm_compute; reflexivity]. apply Nat.ltb_lt. exact S.
Qed.
Lemma escape_char_inj a b : graphviz_escape_char a = graphviz_escape_char b -> a = b.
Proof.
  intros E. destruct (special_dec a) as [Sa|Sa], (special_dec b) as [Sb|Sb].
  - rewrite !escape_special in E by assumption.
    assert (X : forallb (fun a => forallb (fun b => negb (eqb (code_of a) (code_of b)) || eqb a b) specials) specials = true) by (vm_compute; reflexivity).
    pose proof (specials_all _ X a Sa) as Y. pose proof (specials_all _ Y b Sb) as Z. cbn beta in Z. rewrite E, eqb_refl in Z. cbn in Z. revert Z.
    destruct (eqb_spec a b); [intros _; assumption|discriminate].
  - rewrite escape_special in E by exact Sa. rewrite escape_plain in E by exact Sb. pose proof (code_length a Sa) as L. rewrite E in L. cbn in L. lia.
  - rewrite escape_plain in E by exact Sa. rewrite escape_special in E by exact Sb. pose proof (code_length b Sb) as L. rewrite <- E in L. cbn in L. lia.
  - rewrite !escape_plain in E by assumption. injection E as ->. reflexivity.
Qed.
