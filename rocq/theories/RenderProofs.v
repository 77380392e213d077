(** Lemmas on Render.v. *)
From Coq Require Import String ZArith.
From Verif Require Import Str Graphviz Render RenderSpec.
From Verif Require Import Base BaseProofs.
Open Scope string_scope.
Open Scope nat_scope.
Open Scope list_scope.

(** ** UTF-8 *)
Ltac div64 := zify; Z.to_euclidean_division_equations; lia.
Lemma encode_char_ok c : (c <= 1114111)%N -> match encode_char c with Ok b => utf8_char c b | Raise e => e = ValueError /\ surrogate c end.
Proof.
  intros L. unfold encode_char. destruct (N.ltb_spec c 128) as [A|A]; [now apply U1|]. destruct (N.ltb_spec c 2048) as [B|B].
  - assert (c = (c / 64) * 64 + c mod 64)%N as E by div64. rewrite E at 1. apply U2; div64.
  - destruct (N.leb_spec 55296 c) as [C|C]; cbn [andb]; [destruct (N.leb_spec c 57343) as [D|D]; [split; [reflexivity|unfold surrogate; lia]|]|].
    + destruct (N.ltb_spec c 65536) as [F|F].
      * assert (c = (c / 4096) * 4096 + (c / 64) mod 64 * 64 + c mod 64)%N as E by div64. rewrite E at 1. apply U3; unfold surrogate; try rewrite <- E; try lia; div64.
      * assert (c = (c / 262144) * 262144 + (c / 4096) mod 64 * 4096 + (c / 64) mod 64 * 64 + c mod 64)%N as E by div64. rewrite E at 1. apply U4; try rewrite <- E; try lia; div64.
    + destruct (N.ltb_spec c 65536) as [F|F]; [|lia].
      assert (c = (c / 4096) * 4096 + (c / 64) mod 64 * 64 + c mod 64)%N as E by div64. rewrite E at 1. apply U3; unfold surrogate; try rewrite <- E; try lia; div64.
Qed.
Lemma encode_ok s : py_string s -> match utf8_encode s with Ok l => utf8 s l | Raise e => e = ValueError /\ exists c, In c s /\ surrogate c end.
Proof.
  induction 1 as [|c s L F IH]; cbn [utf8_encode]; [exists []; split; [constructor|reflexivity]|]. pose proof (encode_char_ok c L) as K. destruct (encode_char c) as [b|e]; cbn [rbind].
  - destruct (utf8_encode s) as [l|e]; cbn [rbind].
    + destruct IH as (bs & F2 & ->). exists (b :: bs). split; [now constructor|reflexivity].
    + destruct IH as (-> & x & I & S). split; [reflexivity|]. exists x. split; [now right|exact S].
  - destruct K as [-> S]. split; [reflexivity|]. exists c. split; [now left|exact S].
Qed.
Lemma utf8_char_not_surrogate c b : utf8_char c b -> ~ surrogate c /\ (c <= 1114111)%N.
Proof. intros K. inversion K; subst; unfold surrogate in *; split; try assumption; lia. Qed.
Lemma utf8_char_nonempty c b : utf8_char c b -> b <> [].
Proof. intros K; inversion K; discriminate. Qed.

Ltac bt := unfold byte_in; rewrite ?andb_true_iff, ?N.leb_le.
Lemma decode_char c b r : utf8_char c b -> utf8_decode (b ++ r) = rbind (utf8_decode r) (fun s => Ok (c :: s)).
Proof.
  intros K. inversion K as [c0 L|x y X Y L|x y z X Y Z L S|x y z t X Y Z T L]; subst; cbn [app utf8_decode].
  - destruct (N.ltb_spec c 128); [reflexivity|lia].
  - destruct (N.ltb_spec (192 + x) 128); [lia|]. replace (byte_in 194 223 (192 + x) && byte_in 128 191 (128 + y)) with true by (symmetry; bt; lia). replace ((192 + x - 192) * 64 + (128 + y - 128))%N with (x * 64 + y)%N by lia. reflexivity.
  - destruct (N.ltb_spec (224 + x) 128); [lia|]. replace (byte_in 194 223 (224 + x)) with false by (symmetry; apply not_true_iff_false; bt; lia). cbn [andb].
    replace (byte_in 224 239 (224 + x)) with true by (symmetry; bt; lia). replace (byte_in 128 191 (128 + z)) with true by (symmetry; bt; lia).
    replace (byte_in (if (224 + x =? 224)%N then 160 else 128) (if (224 + x =? 237)%N then 159 else 191) (128 + y)) with true.
    2:{ symmetry. unfold surrogate in S. destruct (N.eqb_spec (224 + x) 224), (N.eqb_spec (224 + x) 237); bt; lia. }
    cbn [andb]. replace ((224 + x - 224) * 4096 + (128 + y - 128) * 64 + (128 + z - 128))%N with (x * 4096 + y * 64 + z)%N by lia. reflexivity.
  - destruct (N.ltb_spec (240 + x) 128); [lia|]. replace (byte_in 194 223 (240 + x)) with false by (symmetry; apply not_true_iff_false; bt; lia). cbn [andb].
    replace (byte_in 224 239 (240 + x)) with false by (symmetry; apply not_true_iff_false; bt; lia). cbn [andb].
    replace (byte_in 240 244 (240 + x)) with true by (symmetry; bt; lia). replace (byte_in 128 191 (128 + z)) with true by (symmetry; bt; lia).
    replace (byte_in 128 191 (128 + t)) with true by (symmetry; bt; lia).
    replace (byte_in (if (240 + x =? 240)%N then 144 else 128) (if (240 + x =? 244)%N then 143 else 191) (128 + y)) with true.
    2:{ symmetry. destruct (N.eqb_spec (240 + x) 240), (N.eqb_spec (240 + x) 244); bt; lia. }
    cbn [andb]. replace ((240 + x - 240) * 262144 + (128 + y - 128) * 4096 + (128 + z - 128) * 64 + (128 + t - 128))%N with (x * 262144 + y * 4096 + z * 64 + t)%N by lia. reflexivity.
Qed.
Lemma decode_complete s l : utf8 s l -> utf8_decode l = Ok s.
Proof.
  intros (bs & F & ->). induction F as [|c b s bs K F IH]; [reflexivity|]. cbn [List.concat]. rewrite (decode_char c b _ K), IH. reflexivity.
Qed.
Lemma utf8_cons c b s l : utf8_char c b -> utf8 s l -> utf8 (c :: s) (b ++ l).
Proof. intros K (bs & F & ->). exists (b :: bs). split; [now constructor|reflexivity]. Qed.
Lemma decode_sound_len n : forall l, List.length l <= n -> match utf8_decode l with Ok s => utf8 s l | Raise e => e = ValueError end.
Proof.
  induction n as [|n IH]; intros l L.
  - destruct l; [|cbn in L; lia]. exists []. split; [constructor|reflexivity].
  - assert (MORE : forall c b r, utf8_char c b -> List.length (b ++ r) <= S n -> match rbind (utf8_decode r) (fun s => Ok (c :: s)) with Ok s => utf8 s (b ++ r) | Raise e => e = ValueError end).
    { intros c b r K L1. pose proof (utf8_char_nonempty c b K) as NE. assert (List.length r <= n) as L2 by (destruct b; [congruence|]; cbn in L1; rewrite app_length in L1; lia).
      specialize (IH r L2). destruct (utf8_decode r); cbn [rbind]; [now apply utf8_cons|exact IH]. }
    destruct l as [|a l]; [exists []; split; [constructor|reflexivity]|]. cbn [utf8_decode]. destruct (N.ltb_spec a 128) as [A|A].
    + apply (MORE a [a] l); [now apply U1|exact L].
    + destruct l as [|b l]; [reflexivity|]. destruct (byte_in 194 223 a && byte_in 128 191 b) eqn:E2.
      * revert E2. bt. intros E2. apply (MORE ((a - 192) * 64 + (b - 128))%N [a; b] l); [|exact L].
        replace [a; b] with [192 + (a - 192); 128 + (b - 128)]%N by (repeat f_equal; lia). apply U2; lia.
      * clear E2. destruct l as [|c l]; [reflexivity|].
        destruct (byte_in 224 239 a && byte_in (if (a =? 224)%N then 160 else 128) (if (a =? 237)%N then 159 else 191) b && byte_in 128 191 c) eqn:E3.
        -- revert E3. bt. intros E3. apply (MORE ((a - 224) * 4096 + (b - 128) * 64 + (c - 128))%N [a; b; c] l); [|exact L].
           destruct (N.eqb_spec a 224), (N.eqb_spec a 237); replace [a; b; c] with [224 + (a - 224); 128 + (b - 128); 128 + (c - 128)]%N by (repeat f_equal; lia); apply U3; unfold surrogate; lia.
        -- clear E3. destruct l as [|d l]; [reflexivity|].
           destruct (byte_in 240 244 a && byte_in (if (a =? 240)%N then 144 else 128) (if (a =? 244)%N then 143 else 191) b && byte_in 128 191 c && byte_in 128 191 d) eqn:E4; [|reflexivity].
           revert E4. bt. intros E4. apply (MORE ((a - 240) * 262144 + (b - 128) * 4096 + (c - 128) * 64 + (d - 128))%N [a; b; c; d] l); [|exact L].
           destruct (N.eqb_spec a 240), (N.eqb_spec a 244); replace [a; b; c; d] with [240 + (a - 240); 128 + (b - 128); 128 + (c - 128); 128 + (d - 128)]%N by (repeat f_equal; lia); apply U4; lia.
Qed.
Lemma decode_sound l : match utf8_decode l with Ok s => utf8 s l | Raise e => e = ValueError end.
Proof. exact (decode_sound_len (List.length l) l (le_n _)). Qed.
Lemma decode_iff l s : utf8_decode l = Ok s <-> utf8 s l.
Proof. split; [|apply decode_complete]. intros E. pose proof (decode_sound l) as K. now rewrite E in K. Qed.
Lemma utf8_chars s l : utf8 s l -> py_string s /\ forall c, In c s -> ~ surrogate c.
Proof.
  intros (bs & F & _). induction F as [|c b s bs K F IH]; [split; [constructor|intros ? []]|]. destruct (utf8_char_not_surrogate c b K) as [N B]. destruct IH as [P Q]. split; [now constructor|].
  intros x [<-|I]; [exact N|now apply Q].
Qed.
Lemma encode_iff s l : py_string s -> (utf8_encode s = Ok l <-> utf8 s l).
Proof.
  intros P. pose proof (encode_ok s P) as K. split.
  - intros E. now rewrite E in K.
  - intros U. destruct (utf8_encode s) as [l'|e] eqn:E.
    + destruct U as (bs & F & ->). f_equal. clear P E. revert l' K. assert (UNI : forall c b b', utf8_char c b -> utf8_char c b' -> b = b').
      { intros c b b' A B. inversion A; subst; inversion B; subst; repeat f_equal; lia. }
      induction F as [|c b s bs A F IH]; intros l' (bs' & F' & ->); inversion F'; subst; [reflexivity|]. cbn [List.concat]. f_equal; [now apply (UNI c)|]. apply IH. eexists. split; [eassumption|reflexivity].
    + destruct K as (_ & c & I & S). destruct (utf8_chars s l U) as [_ N]. destruct (N c I S).
Qed.

(** ** str.find *)
Lemma starts_spec sub : forall s, starts sub s = true <-> exists b, s = sub ++ b.
Proof.
  induction sub as [|a sub IH]; intros s; cbn [starts].
  - split; [eexists; reflexivity|reflexivity].
  - destruct s as [|c s]; [split; [discriminate|intros (b & E); discriminate]|]. destruct (eqb_spec a c) as [->|N]; cbn [andb].
    + rewrite IH. split; intros (b & E); exists b; [now rewrite E|now injection E].
    + split; [discriminate|]. intros (b & E). injection E as E _. congruence.
Qed.
Lemma from_find_spec sub s : forall l, (exists t, from_first sub s t /\ from_find sub s l = t) \/
  (~ (exists a b, s = a ++ sub ++ b) /\ from_find sub s l = match rev s with [] => l | c :: _ => [c] end).
Proof.
  induction s as [|c s IH]; intros l.
  - cbn [from_find]. destruct (starts sub []) eqn:E.
    + left. apply starts_spec in E. destruct E as (b & E). exists []. split; [|reflexivity]. exists [], b. split; [reflexivity|]. split; [exact E|]. cbn. lia.
    + right. split; [|reflexivity]. intros (a & b & K). symmetry in K. apply app_eq_nil in K. destruct K as [-> K]. apply not_true_iff_false in E. apply E. apply starts_spec. now exists b.
  - cbn [from_find]. destruct (starts sub (c :: s)) eqn:E.
    + left. apply starts_spec in E. destruct E as (b & E). exists (c :: s). split; [|reflexivity]. exists [], b. split; [reflexivity|]. split; [exact E|]. cbn. lia.
    + assert (N : forall b, c :: s <> sub ++ b) by (intros b K; apply not_true_iff_false in E; apply E; apply starts_spec; now exists b).
      destruct (IH [c]) as [(t & (a & b & E1 & E2 & M) & F)|[M F]].
      * left. exists t. split; [|exact F]. exists (c :: a), b. split; [now rewrite E1|]. split; [exact E2|]. intros [|x a'] b' K; [destruct (N b' K)|]. injection K as _ K. apply M in K. cbn. lia.
      * right. rewrite F. split.
        -- intros ([|x a] & b & K); [destruct (N b K)|]. injection K as _ K. apply M. now exists a, b.
        -- cbn [rev]. destruct (rev s); reflexivity.
Qed.

(** ** The format operator *)
Section Pct.
  Variables py_repr py_ascii : str -> str.
  Notation P := (pct py_repr py_ascii).
  Notation "s %% a" := (percent py_repr py_ascii s a) (at level 40).
  Lemma pct_text arg used a : forall s, ~ In (ch "%") a -> P arg PText used (a ++ s) = rbind (P arg PText used s) (fun r => Ok (a ++ r)).
  Proof.
    induction a as [|c a IH]; intros s N; cbn [app]; [destruct (P arg PText used s); reflexivity|]. cbn [pct]. destruct (eqb_spec c (ch "%")) as [->|_]; [destruct N; now left|].
    rewrite IH by (intros I; apply N; now right). destruct (P arg PText used s); reflexivity.
  Qed.
  Lemma percent_s s : lit "%s" %% AStr s = Ok s.
  Proof. cbn. rewrite app_nil_r. reflexivity. Qed.

  (** the end of the template *)
  Let tail := lit "'>%s</div>".
  Definition plain_phase (p : phase) : Prop :=
    match p with PText | PStart => True | PKey _ _ => False | PFlags f | PWidth f | PPoint f | PPrec f | PConv f => f_value f = None end.
  Lemma tail_text s : P (AStr s) PText false tail = Ok (lit "'>" ++ s ++ lit "</div>").
  Proof. reflexivity. Qed.
  Lemma tail_ok s p used out : plain_phase p -> P (AStr s) p used tail = Ok out -> p = PText /\ used = false.
  Proof.
    intros PP E. destruct p; cbn in PP; try contradiction.
    - split; [reflexivity|]. destruct used; [discriminate|reflexivity].
    - exfalso. destruct used; discriminate.
    - exfalso. destruct f as [a b c v]; cbn in PP; subst v; destruct used; discriminate.
    - exfalso. destruct f as [a b c v]; cbn in PP; subst v; destruct used; discriminate.
    - exfalso. destruct f as [a b c v]; cbn in PP; subst v; destruct used; discriminate.
    - exfalso. destruct f as [a b c v]; cbn in PP; subst v; destruct used; discriminate.
    - exfalso. destruct f as [a b c v]; cbn in PP; subst v; destruct used; discriminate.
  Qed.
  Lemma pct_shrinks s c : forall p used out, plain_phase p -> P (AStr s) p used (c ++ tail) = Ok out ->
    used = false /\ List.length out <= List.length c + List.length (lit "'>" ++ s ++ lit "</div>") /\
    (p = PText -> In (ch "%") c -> List.length out < List.length c + List.length (lit "'>" ++ s ++ lit "</div>")).
  Proof.
    set (K := List.length (lit "'>" ++ s ++ lit "</div>")).
    induction c as [|x c IH]; intros p used out PP E.
    - cbn [app] in E. destruct (tail_ok s p used out PP E) as [-> ->]. rewrite tail_text in E. assert (List.length out = K) as L by (unfold K; congruence). cbn [List.length]. split; [reflexivity|]. split; [lia|intros _ []].
    - cbn [app] in E. cbn [List.length].
      assert (CONV : forall f, f_value f = None ->
        (if eqb x (ch "%") then rbind (P (AStr s) PText used (c ++ tail)) (fun r => Ok (x :: r))
         else match f_value f, AStr s with
              | Some v, _ => rbind (convert py_repr py_ascii f x v) (fun y => rbind (P (AStr s) PText used (c ++ tail)) (fun r => Ok (y ++ r)))
              | None, AStr v => if used then Raise TypeError else rbind (convert py_repr py_ascii f x v) (fun y => rbind (P (AStr s) PText true (c ++ tail)) (fun r => Ok (y ++ r)))
              | None, AMap _ => Raise TypeError
              end) = Ok out -> used = false /\ List.length out <= S (List.length c + K)).
      { intros f -> E1. destruct (eqb x (ch "%")).
        - destruct (P (AStr s) PText used (c ++ tail)) as [r|] eqn:E2; [|discriminate]. injection E1 as <-. destruct (IH PText used r I E2) as (U & L & _). split; [exact U|]. cbn [List.length]. lia.
        - destruct used; [discriminate|]. destruct (convert py_repr py_ascii f x s); [|discriminate]. cbn [rbind] in E1. destruct (P (AStr s) PText true (c ++ tail)) as [r|] eqn:E2; [|discriminate].
          destruct (IH PText true r I E2) as (U & _). discriminate. }
      assert (GO : forall q, plain_phase q -> P (AStr s) q used (c ++ tail) = Ok out -> used = false /\ List.length out <= S (List.length c + K)).
      { intros q PQ E1. destruct (IH q used out PQ E1) as (U & L & _). split; [exact U|lia]. }
      destruct p; cbn in PP; try contradiction; cbn [pct] in E.
      + destruct (eqb_spec x (ch "%")) as [->|N].
        * destruct (IH PStart used out I E) as (U & L & _). split; [exact U|]. split; [lia|]. intros _ _. lia.
        * destruct (P (AStr s) PText used (c ++ tail)) as [r|] eqn:E2; [|discriminate]. injection E as <-. destruct (IH PText used r I E2) as (U & L & M). split; [exact U|]. cbn [List.length]. split; [lia|].
          intros _ [J|J]; [congruence|]. specialize (M eq_refl J). lia.
      + enough (used = false /\ List.length out <= S (List.length c + K)) as [U L] by (split; [exact U|]; split; [exact L|discriminate]).
        repeat match type of E with
        | Raise _ = Ok _ => discriminate E
        | (if eqb x (ch "%") then _ else _) = _ => exact (CONV no_opts eq_refl E)
        | P _ _ _ _ = _ => refine (GO _ _ E); reflexivity
        | (if ?b then _ else _) = _ => destruct b
        end.
      + enough (used = false /\ List.length out <= S (List.length c + K)) as [U L] by (split; [exact U|]; split; [exact L|discriminate]).
        repeat match type of E with
        | Raise _ = Ok _ => discriminate E
        | (if eqb x (ch "%") then _ else _) = _ => exact (CONV f PP E)
        | P _ _ _ _ = _ => refine (GO _ _ E); exact PP
        | (if ?b then _ else _) = _ => destruct b
        end.
      + enough (used = false /\ List.length out <= S (List.length c + K)) as [U L] by (split; [exact U|]; split; [exact L|discriminate]).
        repeat match type of E with
        | Raise _ = Ok _ => discriminate E
        | (if eqb x (ch "%") then _ else _) = _ => exact (CONV f PP E)
        | P _ _ _ _ = _ => refine (GO _ _ E); exact PP
        | (if ?b then _ else _) = _ => destruct b
        end.
      + enough (used = false /\ List.length out <= S (List.length c + K)) as [U L] by (split; [exact U|]; split; [exact L|discriminate]).
        repeat match type of E with
        | Raise _ = Ok _ => discriminate E
        | (if eqb x (ch "%") then _ else _) = _ => exact (CONV f PP E)
        | P _ _ _ _ = _ => refine (GO _ _ E); exact PP
        | (if ?b then _ else _) = _ => destruct b
        end.
      + enough (used = false /\ List.length out <= S (List.length c + K)) as [U L] by (split; [exact U|]; split; [exact L|discriminate]).
        repeat match type of E with
        | Raise _ = Ok _ => discriminate E
        | (if eqb x (ch "%") then _ else _) = _ => exact (CONV f PP E)
        | P _ _ _ _ = _ => refine (GO _ _ E); exact PP
        | (if ?b then _ else _) = _ => destruct b
        end.
      + enough (used = false /\ List.length out <= S (List.length c + K)) as [U L] by (split; [exact U|]; split; [exact L|discriminate]).
        exact (CONV f PP E).
  Qed.

  Lemma template_some c : c <> [] -> background_template_html py_repr py_ascii (Some c) = Ok (lit "<div style='background-color:" ++ c ++ tail).
  Proof. intros N. destruct c as [|x c]; [congruence|]. reflexivity. Qed.
  Lemma template_spec color s :
    match background_template_html py_repr py_ascii color with
    | Ok t => t %% AStr s = Ok (wrapped color s) <-> ~ with_percent color
    | Raise _ => False
    end.
  Proof.
    destruct color as [[|x c]|]; cbn [with_percent].
    - cbn [background_template_html wrapped]. rewrite percent_s. split; auto.
    - rewrite template_some by discriminate. set (d := x :: c). change (wrapped (Some d) s) with (lit "<div style='background-color:" ++ d ++ lit "'>" ++ s ++ lit "</div>"). unfold percent.
      rewrite pct_text by (intros J; vm_compute in J; intuition discriminate). split.
      + intros E J. destruct (P (AStr s) PText false (d ++ tail)) as [r|] eqn:E1; [|discriminate]. cbn [rbind] in E. 
        assert (E2 : lit "<div style='background-color:" ++ r = lit "<div style='background-color:" ++ d ++ lit "'>" ++ s ++ lit "</div>") by congruence. apply app_inv_head in E2. subst r.
        destruct (pct_shrinks s d PText false _ I E1) as (_ & _ & L). specialize (L eq_refl J). rewrite app_length in L. lia.
      + intros N. rewrite pct_text by exact N. rewrite tail_text. reflexivity.
    - cbn [background_template_html wrapped]. rewrite percent_s. tauto.
  Qed.
End Pct.
