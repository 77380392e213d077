(** Lemmas on the parsers and the tokenizer of regular expressions. *)
From Coq Require Import String.
From Verif Require Import Str BaseProofs ThompsonSpec ShuntingYard SYSpec SYProofs Regexp RegexpSpec.
Open Scope string_scope.
Open Scope nat_scope.
Open Scope list_scope.
#[local] Arguments dkeys : simpl never.

(** ** Character classes *)
Lemma In_char_range lo hi x : In x (char_range lo hi) <-> between lo hi x.
Proof.
  unfold char_range, between. rewrite in_map_iff. split.
  - intros (k & <- & I). apply in_seq in I. lia.
  - intros X. exists (N.to_nat (x - lo)). split; [lia|]. apply in_seq. lia.
Qed.
Lemma default_printable x : In x default_alphabet <-> printable x.
Proof.
  unfold default_alphabet, printable. rewrite !in_app_iff, !In_char_range. unfold between. cbn [In]. split; [intros X|intros X]; try lia.
Qed.

Lemma fold_sadd l : forall acc (x : char), In x (fold_left (fun acc c => sadd c acc) l acc) <-> In x acc \/ In x l.
Proof. induction l as [|c l IH]; intros acc x; cbn [fold_left]; [cbn; tauto|]. rewrite IH, In_sadd. cbn. intuition congruence. Qed.

Section Bracket.
  Variable esc : str -> res (list char).
  Variable E : char -> char -> Prop.
  Definition esc_spec (l : list item) : Prop := forall c, In (EscI c) l -> exists chars, esc [ch "\"; c] = Ok chars /\ forall x, In x chars <-> E c x.
  Definition in_it (x : char) (i : item) : Prop := match i with EscI c => E c x | _ => in_item x i end.

  Lemma loop_cons a b s last acc : (last = None \/ a <> ch "-") -> a <> ch "\" ->
    bracket_loop esc (a :: b :: s) last acc = bracket_loop esc (b :: s) (Some a) (sadd a acc).
  Proof.
    intros HL Na. cbn [bracket_loop]. rewrite (proj2 (eqb_neq a (ch "\")) Na). destruct last as [m|]; [|reflexivity].
    destruct HL as [HL|HL]; [discriminate|]. rewrite (proj2 (eqb_neq a (ch "-")) HL). reflexivity.
  Qed.
  Lemma text_end l : exists b s, items_text l ++ lit "]" = b :: s.
  Proof. destruct (items_text l); eexists; eexists; reflexivity. Qed.

  Lemma loop_items l : esc_spec l -> forall last acc, Forall item_ok l -> (last <> None -> Forall (fun i => first_char i <> ch "-") l) ->
    match l with [] => True | _ :: l' => Forall (fun i => first_char i <> ch "-") l' end ->
    exists acc', bracket_loop esc (items_text l ++ lit "]") last acc = Ok acc' /\ forall x, In x acc' <-> In x acc \/ Exists (in_it x) l.
  Proof.
    induction l as [|i l IH]; intros ES last acc F1 F2 F3.
    - exists acc. split; [reflexivity|]. intros x. rewrite Exists_nil. tauto.
    - apply Forall_cons_iff in F1. destruct F1 as (Oi & F1).
      assert (F2' : last = None \/ first_char i <> ch "-").
      { destruct last; [right|left; reflexivity]. specialize (F2 ltac:(discriminate)). apply Forall_cons_iff in F2. apply F2. }
      assert (IH' : forall a acc, exists acc', bracket_loop esc (items_text l ++ lit "]") (Some a) acc = Ok acc' /\ forall x, In x acc' <-> In x acc \/ Exists (in_it x) l).
      { intros a acc0. apply IH; [intros c I; apply ES; right; exact I|exact F1|intros _; exact F3|]. destruct l; [trivial|]. apply Forall_cons_iff in F3. apply F3. }
      clear IH. destruct (text_end l) as (b & s & Eb). unfold items_text in *. cbn [map concat]. rewrite <- app_assoc.
      destruct i as [c|lo hi|c]; cbn [item_text app] in *; cbn [item_ok first_char] in Oi, F2'.
      + rewrite Eb. rewrite loop_cons by assumption. rewrite <- Eb. destruct (IH' c (sadd c acc)) as (acc' & -> & H). exists acc'. split; [reflexivity|].
        intros x. rewrite H, In_sadd, Exists_cons. cbn. intuition congruence.
      + destruct Oi as (Nlo & Le). rewrite loop_cons by assumption. cbn [bracket_loop]. rewrite eqb_refl. replace (hi <? lo)%N with false by (symmetry; apply N.ltb_ge; exact Le).
        rewrite Eb. rewrite <- Eb. destruct (IH' (ch "-") (fold_left (fun acc c => sadd c acc) (char_range lo hi) (sadd lo acc))) as (acc' & -> & H). exists acc'. split; [reflexivity|].
        intros x. rewrite H, fold_sadd, In_sadd, In_char_range, Exists_cons. cbn. unfold between. intuition (subst; auto). all: right; left; split; lia.
      + destruct (ES c (or_introl eq_refl)) as (chars & Ec & Hc). cbn [bracket_loop]. rewrite eqb_refl, Ec. cbn [rbind].
        replace (eqb (ch "\") (ch "-")) with false by reflexivity.
        destruct (IH' (ch "\") (sunion acc chars)) as (acc' & EE & H).
        exists acc'. split; [destruct last; exact EE|]. intros x. rewrite H, In_sunion, Hc, Exists_cons. cbn. tauto.
  Qed.

  Lemma last_text pre d : last (pre ++ lit "]") d = ch "]".
  Proof. apply last_last. Qed.
  Lemma parse_class alphabet neg l : esc_spec l -> class_ok neg l ->
    exists chars, parse_bracket_with esc (class_text neg l) alphabet = Ok chars /\
      forall x, In x chars <-> if neg then In x (alphabet_of alphabet) /\ ~ Exists (in_it x) l else Exists (in_it x) l.
  Proof.
    intros ES ((F1 & F2) & F3). destruct (loop_items l ES None [] F1 ltac:(congruence) F2) as (acc' & EL & H).
    unfold parse_bracket_with. fold (alphabet_of alphabet).
    assert (ET : class_text neg l = ch "[" :: (if neg then lit "^" else []) ++ items_text l ++ lit "]") by reflexivity. rewrite ET.
    assert (EL2 : forall d, last (ch "[" :: (if neg then lit "^" else []) ++ items_text l ++ lit "]") d = ch "]").
    { intros d. rewrite app_assoc. change (ch "[" :: ?a ++ ?b) with ((ch "[" :: a) ++ b). apply last_text. }
    rewrite EL2, !eqb_refl. cbn [andb negb].
    assert (LEN : List.length (ch "[" :: (if neg then lit "^" else []) ++ items_text l ++ lit "]") <? 3 = false).
    { apply Nat.ltb_ge. cbn [List.length]. rewrite !app_length. cbn [List.length lit map String.list_ascii_of_string]. destruct neg; cbn; [lia|].
      specialize (F3 eq_refl). destruct l as [|i l]; [destruct F3|]. unfold items_text. cbn [map concat]. rewrite app_length. destruct i; cbn; lia. }
    rewrite LEN. destruct neg.
    - change (lit "^" ++ items_text l ++ lit "]") with (ch "^" :: items_text l ++ lit "]"). cbv beta iota zeta. rewrite eqb_refl. cbn [tl]. rewrite EL. cbn [rbind].
      eexists. split; [reflexivity|]. intros x. rewrite In_sdiff, In_sof, H. cbn. tauto.
    - cbn [app]. specialize (F3 eq_refl). assert (R : match items_text l ++ lit "]" with c :: _ => eqb c (ch "^") | [] => false end = false).
      { destruct l as [|i l]; [destruct F3|]. unfold items_text. cbn [map concat]. rewrite <- app_assoc. destruct i as [c|lo hi|c]; cbn [item_text app first_char] in *; apply eqb_neq; assumption || discriminate. }
      rewrite R, EL. cbn [rbind]. exists acc'. split; [reflexivity|]. intros x. rewrite H. cbn. tauto.
  Qed.
End Bracket.

Ltac enum := repeat (cbn [item_ok first_char]; match goal with
  | |- Forall _ [] => constructor
  | |- Forall _ (_ :: _) => constructor
  | |- _ /\ _ => split
  | |- _ <> _ => discriminate
  | |- (_ <= _)%N => lia
  | |- True => exact I
  | |- match _ with _ => _ end => cbn beta iota
  end).
Lemma escaped_spec alphabet c : In c escapable -> exists chars, parse_escaped [ch "\"; c] alphabet = Ok chars /\
  forall x, In x chars <-> escaped (alphabet_of alphabet) c x.
Proof.
  assert (PC : forall neg l, Forall (fun i => match i with EscI _ => False | _ => True end) l -> class_ok neg l ->
     exists chars, parse_bracket_with (fun _ => Raise ValueError) (class_text neg l) alphabet = Ok chars /\
     forall x, In x chars <-> if neg then In x (alphabet_of alphabet) /\ ~ Exists (in_item x) l else Exists (in_item x) l).
  { intros neg l NE OK. rewrite Forall_forall in NE. destruct (parse_class (fun _ => Raise ValueError) (escaped default_alphabet) alphabet neg l) as (chars & E1 & H).
    - intros d I. destruct (NE _ I).
    - exact OK.
    - exists chars. split; [exact E1|]. intros x. rewrite (H x). assert (EX : Exists (in_it (escaped default_alphabet) x) l <-> Exists (in_item x) l).
      { rewrite !Exists_exists. split; intros (i & I & X); exists i; (split; [exact I|]); destruct i; exact X. }
      destruct neg; rewrite EX; reflexivity. }
  assert (EXD : forall x, Exists (in_item x) [Range 48%N 57%N] <-> digit x) by (intros x; rewrite Exists_cons, Exists_nil; unfold digit; cbn; tauto).
  assert (EXS : forall x, Exists (in_item x) [One 32%N; One 9%N] <-> (x = 32%N \/ x = 9%N)) by (intros x; rewrite !Exists_cons, Exists_nil; cbn; tauto).
  assert (EXW : forall x, Exists (in_item x) [Range 48%N 57%N; Range 65%N 90%N; Range 97%N 122%N] <-> (digit x \/ letter x)) by (intros x; rewrite !Exists_cons, Exists_nil; unfold digit, letter; cbn; tauto).
  assert (ONE : forall a, (exists chars, parse_escaped [ch "\"; c] alphabet = Ok chars /\ chars = [a]) -> (forall x, escaped (alphabet_of alphabet) c x <-> x = a) ->
     exists chars, parse_escaped [ch "\"; c] alphabet = Ok chars /\ forall x, In x chars <-> escaped (alphabet_of alphabet) c x).
  { intros a (chars & E1 & ->) H. exists [a]. split; [exact E1|]. intros x. rewrite H. cbn. intuition congruence. }
  intros I. cbn in I.
  destruct I as [<-|I]; [apply (ONE 7%N); [eexists; split; reflexivity|]; intros x; reflexivity|].
  destruct I as [<-|I]; [apply (ONE 8%N); [eexists; split; reflexivity|]; intros x; reflexivity|].
  destruct I as [<-|I]; [destruct (PC false [Range 48%N 57%N]) as (chars & E1 & H); [enum|split; [split; enum|intros _; cbn; discriminate]|]; exists chars; (split; [exact E1|]); intros x; rewrite H, EXD; reflexivity|].
  destruct I as [<-|I]; [destruct (PC true [Range 48%N 57%N]) as (chars & E1 & H); [enum|split; [split; enum|discriminate]|]; exists chars; (split; [exact E1|]); intros x; rewrite H, EXD; reflexivity|].
  destruct I as [<-|I]; [apply (ONE 12%N); [eexists; split; reflexivity|]; intros x; reflexivity|].
  destruct I as [<-|I]; [apply (ONE 10%N); [eexists; split; reflexivity|]; intros x; reflexivity|].
  destruct I as [<-|I]; [apply (ONE 13%N); [eexists; split; reflexivity|]; intros x; reflexivity|].
  destruct I as [<-|I]; [destruct (PC false [One 32%N; One 9%N]) as (chars & E1 & H); [enum|split; [split; enum|intros _; cbn; discriminate]|]; exists chars; (split; [exact E1|]); intros x; rewrite H, EXS; reflexivity|].
  destruct I as [<-|I]; [destruct (PC true [One 32%N; One 9%N]) as (chars & E1 & H); [enum|split; [split; enum|discriminate]|]; exists chars; (split; [exact E1|]); intros x; rewrite H, EXS; reflexivity|].
  destruct I as [<-|I]; [apply (ONE 9%N); [eexists; split; reflexivity|]; intros x; reflexivity|].
  destruct I as [<-|I]; [apply (ONE 11%N); [eexists; split; reflexivity|]; intros x; reflexivity|].
  destruct I as [<-|I]; [destruct (PC false [Range 48%N 57%N; Range 65%N 90%N; Range 97%N 122%N]) as (chars & E1 & H); [enum|split; [split; enum|intros _; cbn; discriminate]|]; exists chars; (split; [exact E1|]); intros x; rewrite H, EXW; reflexivity|].
  destruct I as [<-|I]; [destruct (PC true [Range 48%N 57%N; Range 65%N 90%N; Range 97%N 122%N]) as (chars & E1 & H); [enum|split; [split; enum|discriminate]|]; exists chars; (split; [exact E1|]); intros x; rewrite H, EXW; reflexivity|].
  destruct I as [<-|I]; [apply (ONE 42%N); [eexists; split; reflexivity|]; intros x; reflexivity|].
  destruct I as [<-|I]; [apply (ONE 43%N); [eexists; split; reflexivity|]; intros x; reflexivity|].
  destruct I as [<-|I]; [apply (ONE 63%N); [eexists; split; reflexivity|]; intros x; reflexivity|].
  destruct I as [<-|I]; [apply (ONE 46%N); [eexists; split; reflexivity|]; intros x; reflexivity|].
  destruct I as [<-|I]; [apply (ONE 124%N); [eexists; split; reflexivity|]; intros x; reflexivity|].
  destruct I as [<-|I]; [apply (ONE 91%N); [eexists; split; reflexivity|]; intros x; reflexivity|].
  destruct I as [<-|I]; [apply (ONE 93%N); [eexists; split; reflexivity|]; intros x; reflexivity|].
  destruct I as [<-|I]; [apply (ONE 40%N); [eexists; split; reflexivity|]; intros x; reflexivity|].
  destruct I as [<-|I]; [apply (ONE 41%N); [eexists; split; reflexivity|]; intros x; reflexivity|].
  destruct I as [<-|I]; [apply (ONE 123%N); [eexists; split; reflexivity|]; intros x; reflexivity|].
  destruct I as [<-|I]; [apply (ONE 125%N); [eexists; split; reflexivity|]; intros x; reflexivity|].
  destruct I.
Qed.

Lemma parse_bracket_class alphabet neg l : class_ok neg l ->
  exists chars, parse_bracket (class_text neg l) alphabet = Ok chars /\ forall x, In x chars <-> in_class alphabet neg l x.
Proof.
  intros OK. destruct (parse_class (fun s => parse_escaped s []) (escaped default_alphabet) alphabet neg l) as (chars & E1 & H).
  - intros c I. apply (escaped_spec []). destruct OK as ((F & _) & _). rewrite Forall_forall in F. apply (F _ I).
  - exact OK.
  - exists chars. split; [exact E1|]. intros x. rewrite (H x). unfold in_class. assert (EX : Exists (in_it (escaped default_alphabet) x) l <-> Exists (in_item x) l).
    { rewrite !Exists_exists. split; intros (i & I & X); exists i; (split; [exact I|]); destruct i; exact X. }
    destruct neg; rewrite EX; reflexivity.
Qed.
