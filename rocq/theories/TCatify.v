(** Theorems C133: the tokens of a regular expression. *)
From Coq Require Import String.
From Verif Require Import Str Graph Automaton Nfa Thompson ShuntingYard Regexp SYProofs Catify CatifySpec CatifyProofs Base BaseProofs.
Open Scope string_scope.
Open Scope nat_scope.
Open Scope list_scope.

(** C133, the characters of [\s] and [\d] in the repetitions. *)
Theorem C133_spaces (c : char) : (isspace c = true <-> white c) /\ (isdigit c = true <-> In c (lit "0123456789")).
Proof.
  split.
  - unfold isspace, white. rewrite orb_true_iff, mem_spec, andb_true_iff, !N.leb_le. split.
    + intros [I|[L1 L2]].
      * repeat (destruct I as [<-|I]; [vm_compute; tauto|]). destruct I.
      * assert (X : exists k, k < 11 /\ c = (8192 + N.of_nat k)%N) by (exists (N.to_nat (c - 8192)); lia).
        destruct X as (k & L & ->). do 11 (destruct k as [|k]; [vm_compute; tauto|]). lia.
    + intros I. assert (X : forallb (fun c => mem c [9; 10; 11; 12; 13; 28; 29; 30; 31; 32; 133; 160; 5760; 8232; 8233; 8239; 8287; 12288]%N || ((8192 <=? c) && (c <=? 8202))%N)
        [9; 10; 11; 12; 13; 28; 29; 30; 31; 32; 133; 160; 5760; 8192; 8193; 8194; 8195; 8196; 8197; 8198; 8199; 8200; 8201; 8202; 8232; 8233; 8239; 8287; 12288]%N = true) by (vm_compute; reflexivity).
      rewrite forallb_forall in X. apply X in I. rewrite orb_true_iff, mem_spec, andb_true_iff, !N.leb_le in I. exact I.
  - unfold isdigit. rewrite andb_true_iff, !N.leb_le. split.
    + intros [L1 L2]. assert (X : exists k, k < 10 /\ c = (48 + N.of_nat k)%N) by (exists (N.to_nat (c - 48)); lia).
      destruct X as (k & L & ->). do 10 (destruct k as [|k]; [vm_compute; tauto|]). lia.
    + intros I. vm_compute in I. repeat (destruct I as [<-|I]; [lia|]). destruct I.
Qed.
Example C133_spaces_example : isspace 8192%N = true /\ isspace 8203%N = false /\ isdigit (ch "7") = true.
Proof. vm_compute. auto. Qed.
(** C133: the pattern matches at the beginning of a text exactly when an operator stands there, and then the match is
    this operator (there is one at most): no choice is left to the order of the alternatives, nor to backtracking. *)
Theorem C133_operators (s : str) : 
  (forall n, match_re s = Some n <-> exists t rest, re_operator t /\ s = t ++ rest /\ List.length t = n) /\
  (forall t rest t' rest', re_operator t -> re_operator t' -> s = t ++ rest -> s = t' ++ rest' -> t = t' /\ rest = rest').
Proof.
  split; [apply match_re_iff|]. intros t rest t' rest' O O' E E'. apply operator_prefix; try assumption. congruence.
Qed.

(** C133: every text has one reading as operators and literals, which loses no character; catify gives the texts of its pieces
    in order, with [cat] exactly between a piece that ends an operand and a piece that begins one. *)
Theorem C133_catify (s : str) : exists l, lexing s l /\ (forall l', lexing s l' -> l' = l) /\ concat (map text l) = s /\
  (forall cat, with_cat cat l (catify s (Some cat))) /\ with_cat (lit ".") l (tokenizer_re s).
Proof.
  destruct (lexing_exists s) as (l & L). exists l. split; [exact L|]. split; [intros l' L'; exact (lexing_unique _ _ L' _ L)|]. split; [apply lexing_text, L|].
  assert (H : forall cat, with_cat cat l (catify s (Some cat))).
  { intros cat. rewrite (catify_eq s (Some cat) _ (lexing_segs s l L [])), cat_segs_tokens. cbn [map app].
    destruct l as [|p l]; [constructor|]. cbn [tokens_of]. replace (sep cat false p) with (@nil str) by reflexivity. apply tokens_with_cat. }
  split; [exact H|]. rewrite tokenizer_catify. apply H.
Qed.

(** C133: without [cat] (None), the tokens are the operators and the literals between them put together; they make up the text. *)
Theorem C133_without_cat (s : str) : exists l, lexing s l /\ grouped l (catify s None) /\ concat (catify s None) = s.
Proof.
  destruct (lexing_exists s) as (l & L). exists l. split; [exact L|].
  assert (G : grouped l (catify s None)).
  { rewrite (catify_eq s None _ (lexing_segs s l L [])), none_segs. cbn [fst app]. exact (pieces_grouped l []). }
  split; [exact G|]. apply (eq_trans (y := concat (map text l))); [|apply lexing_text, L]. revert G. generalize (catify s None) as r0. clear. induction 1 as [|t l r G IH|u l r NE H G IH]; [reflexivity| |].
  - cbn [map concat text]. rewrite IH. reflexivity.
  - cbn [concat]. rewrite map_app, concat_app, <- IH. f_equal. clear. symmetry. induction u as [|c u IH]; [reflexivity|]. cbn. f_equal. exact IH.
Qed.

(** The specification determines the tokens. *)
Theorem C133_tokens_unique cat l r r' : with_cat cat l r -> with_cat cat l r' -> r = r'.
Proof.
  intros H. revert r'. induction H as [|p|p q l r E B H IH|p q l r N H IH]; intros r' H'; inversion H'; subst; try reflexivity; try (exfalso; tauto).
  - f_equal. f_equal. apply IH. assumption.
  - f_equal. apply IH. assumption.
Qed.

(** "[ab]c|\*d{1, 2}(e" : a class, a bar, an escape sequence, a repetition; "{1;2}" is no repetition, and each of its characters is
    a literal. *)
Example C133_catify_nontrivial :
  catify (lit "[ab]c|\*d{1, 2}(e") (Some (lit "&")) =
    [lit "[ab]"; lit "&"; lit "c"; lit "|"; lit "\*"; lit "&"; lit "d"; lit "{1, 2}"; lit "&"; lit "("; lit "e"] /\
  catify (lit "ab{1;2}*c") (Some (lit ".")) =
    [lit "a"; lit "."; lit "b"; lit "."; lit "{"; lit "."; lit "1"; lit "."; lit ";"; lit "."; lit "2"; lit "."; lit "}"; lit "*"; lit "."; lit "c"] /\
  catify (lit "ab{1;2}*c") None = [lit "ab{1;2}"; lit "*"; lit "c"].
Proof. vm_compute. repeat split. Qed.
Example C133_operators_nontrivial : re_operator (lit "{ 1 2 }") /\ match_re (lit "{ 1 2 }x") = Some 7 /\ match_re (lit "{,2}") = None.
Proof.
  split; [|vm_compute; split; reflexivity].
  apply (op_repetition (lit " ") (lit "1") [] (lit " 2") (lit " ")); try (intros c [<-|[]]; reflexivity); [|auto|].
  - split; [discriminate|]. intros c [<-|[]]; reflexivity.
  - right. exists (lit " "), (lit "2"). split; [intros c [<-|[]]; reflexivity|]. split; [|reflexivity]. split; [discriminate|]. intros c [<-|[]]; reflexivity.
Qed.

Print Assumptions C133_operators.
Print Assumptions C133_catify.
Print Assumptions C133_without_cat.
Print Assumptions C133_tokens_unique.
Print Assumptions C133_spaces.
