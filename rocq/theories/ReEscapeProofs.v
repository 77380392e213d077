(** Lemmas on re_escape: the tokens of an escaped text. *)
From Coq Require Import String.
From Verif Require Import Str BaseProofs Graph Automaton Nfa NfaSpec NfaProofs Thompson ThompsonSpec ThompsonProofs ThompsonProofs2 ThompsonProofs3 ThompsonProofs4 TThompson ShuntingYard Regexp RegexpSpec RegexpProofs RegexpProofs2 RegexpProofs3 ReEscape.
Open Scope string_scope.
Open Scope nat_scope.
Open Scope list_scope.

Definition specials : str := lit "|[]{}.+*?()^$\".
(** the characters whose escape is not a token *)
Definition troubles : str := lit "^$\".
Lemma re_escape_cons c w : re_escape (c :: w) = (if mem c specials then [ch "\"; c] else [c]) ++ re_escape w.
Proof. unfold re_escape. cbn [flat_map]. fold specials. destruct (mem c specials); reflexivity. Qed.
Lemma re_escape_app u v : re_escape (u ++ v) = re_escape u ++ re_escape v.
Proof. unfold re_escape. apply flat_map_app. Qed.

(** ** the clean texts *)
Definition atom (c : char) : rexp := if mem c specials then Esc c else Chr c.
Fixpoint cats (r : rexp) (w : str) : rexp := match w with [] => r | c :: w => cats (Cat r (atom c)) w end.

Lemma show_atom c : show (atom c) = re_escape [c].
Proof. rewrite re_escape_cons. unfold atom. destruct (mem c specials); reflexivity. Qed.
Lemma show_cats w : forall r, show (cats r w) = show r ++ re_escape w.
Proof.
  induction w as [|c w IH]; intros r; cbn [cats]; [symmetry; apply app_nil_r|]. rewrite IH. cbn [show]. rewrite show_atom, <- app_assoc.
  f_equal. rewrite <- re_escape_app. reflexivity.
Qed.
Lemma special_escapable c : In c specials -> ~ In c troubles -> In c (lit "+*?.|[](){}").
Proof. intros I N. cbn in *. intuition. Qed.
Lemma ops_escapable c : In c (lit "+*?.|[](){}") -> In c escapable.
Proof. intros I. cbn in *. intuition. Qed.
Lemma escaped_op A c x : In c (lit "+*?.|[](){}") -> (escaped A c x <-> x = c).
Proof. intros I. unfold escaped. rewrite (proj2 (mem_spec _ _) I). reflexivity. Qed.
Lemma plain_ok c : ~ In c specials -> ~ In c (lit "*+?.|(){[\").
Proof. intros N I. apply N. cbn in *. intuition. Qed.

Lemma denote_atom A c : ~ In c troubles -> forall w, denote A (atom c) w <-> w = [c].
Proof.
  intros N w. unfold atom. destruct (mem c specials) eqn:M; cbn [denote].
  - apply mem_spec in M. pose proof (special_escapable c M N) as I. unfold lsym. split.
    + intros (a & -> & X). apply (escaped_op _ _ _ I) in X. congruence.
    + intros ->. exists c. split; [reflexivity|]. apply (escaped_op _ _ _ I). reflexivity.
  - unfold lsym. split; [intros (a & -> & <-); reflexivity|]. intros ->. exists c. auto.
Qed.
Lemma wf_atom A c : ~ In c troubles -> c <> epsilon -> well_formed A (atom c).
Proof.
  intros N NE. unfold atom. destruct (mem c specials) eqn:M; cbn [well_formed].
  - apply mem_spec in M. pose proof (special_escapable c M N) as I. split; [apply ops_escapable, I|]. intros X. apply (escaped_op _ _ _ I) in X. congruence.
  - apply mem_false in M. split; [apply plain_ok, M|exact NE].
Qed.
Lemma level_atom c : level (atom c) = 0.
Proof. unfold atom. destruct (mem c specials); reflexivity. Qed.
Lemma safe_atom c : safe (atom c) = true.
Proof. unfold atom. destruct (mem c specials); reflexivity. Qed.
Definition clean (w : str) : Prop := Forall (fun c => ~ In c troubles) w.
Lemma cats_ok A w : forall r u, clean w -> ~ In epsilon w -> well_formed A r -> safe r = true -> level r <= 3 -> (forall v, denote A r v <-> v = u) ->
  well_formed A (cats r w) /\ safe (cats r w) = true /\ level (cats r w) <= 3 /\ forall v, denote A (cats r w) v <-> v = u ++ w.
Proof.
  induction w as [|c w IH]; intros r u C N W S Lv D; cbn [cats].
  - rewrite app_nil_r. auto.
  - inversion C as [|? ? C1 C2]; subst. destruct (IH (Cat r (atom c)) (u ++ [c])) as (X1 & X2 & X3 & X4).
    + exact C2.
    + intros X. apply N. right. exact X.
    + cbn [well_formed]. split; [exact W|]. split; [apply wf_atom; [exact C1|intros ->; apply N; left; reflexivity]|]. rewrite level_atom. lia.
    + cbn [safe]. rewrite S, safe_atom. reflexivity.
    + cbn [level]. lia.
    + intros v. cbn [denote]. unfold lcat. split.
      * intros (a & b & -> & X & Y). apply D in X. apply denote_atom in Y; [|exact C1]. congruence.
      * intros ->. exists u, [c]. split; [reflexivity|]. split; [apply D; reflexivity|apply denote_atom; [exact C1|reflexivity]].
    + rewrite <- app_assoc in X4. auto.
Qed.

(** ** the other texts *)
Definition tok (c : char) : str := if mem c specials then [ch "\"; c] else [c].
(** the tokens of a clean text, after a token iff [prev] *)
Fixpoint toks (prev : bool) (w : str) : list str := match w with [] => [] | c :: w => dot prev ++ tok c :: toks true w end.
Definition nprev (prev : bool) (w : str) : bool := match w with [] => prev | _ => true end.

Lemma cu_char ex prev c : cat_unmatched (ex, prev) c = (ex ++ dot prev ++ [[c]], true).
Proof. unfold cat_unmatched. destruct prev; cbn [dot]; [rewrite app_assoc|]; reflexivity. Qed.

Lemma lexes_clean w : clean w -> forall rest ex prev st', lexes rest (ex ++ toks prev w, nprev prev w) st' -> lexes (re_escape w ++ rest) (ex, prev) st'.
Proof.
  induction w as [|c w IH]; intros C rest ex prev st' X; cbn [toks nprev] in X.
  - rewrite app_nil_r in X. exact X.
  - inversion C as [|? ? C1 C2]; subst. rewrite re_escape_cons, <- app_assoc.
    assert (Y : lexes (re_escape w ++ rest) (ex ++ dot prev ++ [tok c], true) st').
    { apply IH; [exact C2|]. replace (nprev true w) with true by (destruct w; reflexivity). rewrite <- !app_assoc. exact X. }
    unfold tok in Y. destruct (mem c specials) eqn:M.
    + apply mem_spec in M. apply lexes_token; [discriminate| |].
      * apply match_escape. apply ops_escapable, special_escapable; assumption.
      * rewrite cm_esc. exact Y.
    + apply mem_false in M. cbn [app]. apply lexes_char; [apply match_plain, plain_ok, M|]. rewrite cu_char. exact Y.
Qed.

(** any escaped text has tokens, with or without a backslash before it *)
Definition grows (s : str) : Prop := forall st, exists st', lexes s st st' /\ exists l, fst st' = fst st ++ l.
Lemma grows_char c r : match_re (c :: r) = None -> grows r -> grows (c :: r).
Proof.
  intros M G [ex prev]. destruct (G (cat_unmatched (ex, prev) c)) as (st' & X & l & E). exists st'. split; [apply lexes_char; assumption|].
  rewrite cu_char in E. cbn [fst] in *. rewrite <- app_assoc in E. eauto.
Qed.
Lemma grows_esc c r : In c escapable -> grows r -> grows (ch "\" :: c :: r).
Proof.
  intros I G [ex prev]. destruct (G (cat_matched (ex, prev) [ch "\"; c])) as (st' & X & l & E). exists st'. split.
  - change (ch "\" :: c :: r) with ([ch "\"; c] ++ r). apply lexes_token; [discriminate|apply match_escape, I|exact X].
  - rewrite cm_esc in E. cbn [fst] in *. rewrite <- app_assoc in E. eauto.
Qed.
Lemma match_not_escape c r : ~ In c escapable -> match_re (ch "\" :: c :: r) = None.
Proof.
  intros N. change (match_re (ch "\" :: c :: r)) with (if mem c escapable then Some 2 else None). rewrite (proj2 (mem_false _ _) N). reflexivity.
Qed.
Lemma trouble_not_escapable c : In c troubles -> ~ In c escapable.
Proof. intros I. apply mem_false. cbn in I. destruct I as [<-|[<-|[<-|[]]]]; reflexivity. Qed.
Lemma trouble_special c : In c troubles -> mem c specials = true.
Proof. intros I. cbn in I. destruct I as [<-|[<-|[<-|[]]]]; reflexivity. Qed.
Lemma grows_both w : grows (re_escape w) /\ grows (ch "\" :: re_escape w).
Proof.
  induction w as [|c w [IH1 IH2]].
  - assert (G0 : grows []) by (intros st; exists st; split; [apply lexes_end|exists []; symmetry; apply app_nil_r]).
    split; [exact G0|]. apply grows_char; [reflexivity|exact G0].
  - assert (P : grows (re_escape (c :: w))).
    { rewrite re_escape_cons. destruct (mem c specials) eqn:M.
      - apply mem_spec in M. cbn [app]. destruct (mem c troubles) eqn:Tr.
        + apply mem_spec in Tr. apply grows_char; [apply match_not_escape, trouble_not_escapable, Tr|].
          cbn in Tr. destruct Tr as [<-|[<-|[<-|[]]]]; [| |exact IH2]; (apply grows_char; [reflexivity|exact IH1]).
        + apply mem_false in Tr. apply grows_esc; [apply ops_escapable, special_escapable; assumption|exact IH1].
      - apply mem_false in M. cbn [app]. apply grows_char; [apply match_plain, plain_ok, M|exact IH1]. }
    split; [exact P|]. rewrite re_escape_cons in *. destruct (mem c specials) eqn:M; cbn [app] in *.
    + apply grows_char; [apply match_not_escape, trouble_not_escapable; right; right; left; reflexivity|exact P].
    + destruct (mem c escapable) eqn:E.
      * apply mem_spec in E. apply grows_esc; [exact E|exact IH1].
      * apply mem_false in E. apply grows_char; [apply match_not_escape, E|exact P].
Qed.
(** the tokens up to the first character in trouble *)
Lemma tokens_trouble u c v : clean u -> In c troubles -> exists l, tokenizer_re (re_escape (u ++ c :: v)) = toks false u ++ dot (nprev false u) ++ [ch "\"] :: l.
Proof.
  intros C I. rewrite re_escape_app, re_escape_cons, (trouble_special c I). cbn [app].
  assert (G : grows (c :: re_escape v)).
  { destruct (grows_both v) as [G1 G2]. cbn in I. destruct I as [<-|[<-|[<-|[]]]]; [| |exact G2]; (apply grows_char; [reflexivity|exact G1]). }
  destruct (G (cat_unmatched (toks false u, nprev false u) (ch "\"))) as (st' & X & l & E). exists l.
  rewrite (lexes_tokenizer _ st').
  - rewrite cu_char in E. cbn [fst] in E. rewrite E, <- !app_assoc. reflexivity.
  - apply lexes_clean; [exact C|]. apply lexes_char; [apply match_not_escape, trouble_not_escapable, I|exact X].
Qed.

Section Raise.
  Variables (ordc : set_order char) (ordn : set_order nat) (alphabet : list char).
  Hypothesis OC : valid_order ordc.
  Hypothesis ON : valid_order ordn.
  Notation frag := (nfa char * nat * nat)%type.
  Notation push := (on_push_output ordc ordn alphabet).
  Notation good := (good epsilon).
  Notation loop := (tokens_loop (lit "(") (lit ")") map_operators_re push).

  (** an operand *)
  Lemma push_tok c nfas : ~ In c troubles -> c <> epsilon -> exists x, push nfas (tok c) = Ok (x :: nfas) /\ good x.
  Proof.
    intros N NE. unfold tok. destruct (mem c specials) eqn:M.
    - apply mem_spec in M. pose proof (special_escapable c M N) as I. destruct (escaped_spec alphabet c (ops_escapable c I)) as (chars & E & H).
      eexists. split; [apply push_esc; exact E|].
      apply (sem_chars ordc OC chars (fun x => x = c)); [congruence|]. intros x. rewrite (H x). apply escaped_op, I.
    - apply mem_false in M. eexists. split; [apply push_char, plain_ok, M|]. exact (proj1 (literal_ok epsilon c NE)).
  Qed.
  Lemma step_operand a ops nfas : opnd a -> token_step (lit "(") (lit ")") map_operators_re push (ops, nfas) a = rbind (push nfas a) (fun nfas => Ok (ops, nfas)).
  Proof.
    intros (N1 & N2 & N3). unfold token_step. rewrite (proj2 (eqb_neq _ _) N1), (proj2 (eqb_neq _ _) N2), (proj2 (dget_None _ _) N3). reflexivity.
  Qed.
  Lemma opnd_tok c : opnd (tok c).
  Proof. unfold tok. destruct (mem c specials) eqn:M; [apply operand_long|]. apply mem_false in M. apply operand_char, plain_ok, M. Qed.
  Lemma opnd_bs : opnd [ch "\"].
  Proof. split; [discriminate|]. split; [discriminate|]. intros I. cbv in I. intuition discriminate. Qed.
  (** the state after one operand, or several *)
  Definition waiting (s : list str * list frag) : Prop :=
    (exists x, s = ([], [x]) /\ good x) \/ (exists x1 x2, s = ([lit "."], [x2; x1]) /\ good x1 /\ good x2).
  Lemma step_dot s : waiting s -> exists x, token_step (lit "(") (lit ")") map_operators_re push s (lit ".") = Ok ([lit "."], [x]) /\ good x.
  Proof.
    intros [(x & -> & G)|(x1 & x2 & -> & G1 & G2)]; [exists x; split; [reflexivity|exact G]|].
    destruct (C25_concatenation epsilon x1 x2 G1 G2) as (x & E & G & _). exists x. split; [|exact G].
    unfold token_step. change (eqb (lit ".") (lit "(")) with false. change (eqb (lit ".") (lit ")")) with false. cbv iota.
    change (dget map_operators_re (lit ".")) with (Some (mkOp 2 2 true)). cbv iota. cbn [pop_loop].
    change (preceeds map_operators_re (lit ".") (mkOp 2 2 true)) with true. cbv iota. rewrite (push_dot ordc ordn alphabet x1 x2 [] x E). reflexivity.
  Qed.
  Lemma loop_toks w : forall s rest, clean w -> ~ In epsilon w -> waiting s -> exists s', waiting s' /\ loop s (toks true w ++ rest) = loop s' rest.
  Proof.
    induction w as [|c w IH]; intros s rest C N W; cbn [toks]; [exists s; split; [exact W|reflexivity]|].
    inversion C as [|? ? C1 C2]; subst. destruct (step_dot s W) as (x & Ex & Gx).
    destruct (push_tok c [x] C1) as (y & Ey & Gy); [intros ->; apply N; left; reflexivity|].
    destruct (IH ([lit "."], [y; x]) rest) as (s' & W' & E').
    - exact C2.
    - intros X. apply N. right. exact X.
    - right. exists x, y. auto.
    - exists s'. split; [exact W'|]. rewrite <- E'. cbn [dot app tokens_loop]. rewrite Ex. cbn [rbind]. rewrite (step_operand _ _ _ (opnd_tok c)), Ey. reflexivity.
  Qed.
  Lemma compile_trouble u c v : clean u -> ~ In epsilon u -> In c troubles -> thompson_compile_nfa ordc ordn alphabet (re_escape (u ++ c :: v)) = Raise IndexError.
  Proof.
    intros C N I. destruct (tokens_trouble u c v C I) as (l & E). unfold thompson_compile_nfa.
    assert (NE : re_escape (u ++ c :: v) <> []).
    { rewrite re_escape_app, re_escape_cons, (trouble_special c I). destruct (re_escape u); discriminate. }
    destruct (re_escape (u ++ c :: v)) as [|d r]; [contradiction|]. rewrite E. clear E NE d r. unfold shunting_yard_postfix.
    assert (X : loop ([], []) (toks false u ++ dot (nprev false u) ++ [ch "\"] :: l) = Raise IndexError); [|rewrite X; reflexivity].
    assert (B : forall ops nfas l, loop (ops, nfas) ([ch "\"] :: l) = Raise IndexError).
    { intros ops nfas l0. cbn [tokens_loop]. rewrite (step_operand [ch "\"] ops nfas opnd_bs). reflexivity. }
    destruct u as [|c0 u]; [exact (B [] [] l)|]. inversion C as [|? ? C1 C2]; subst. cbn [toks nprev dot app tokens_loop].
    destruct (push_tok c0 [] C1) as (x & Ex & Gx); [intros ->; apply N; left; reflexivity|].
    rewrite (step_operand (tok c0) [] [] (opnd_tok c0)), Ex. cbn [rbind].
    destruct (loop_toks u ([], [x]) (lit "." :: [ch "\"] :: l)) as (s' & W & E').
    - exact C2.
    - intros X. apply N. right. exact X.
    - left. exists x. auto.
    - rewrite E'. destruct (step_dot s' W) as (y & Ey & _). cbn [tokens_loop]. rewrite Ey. cbn [rbind]. exact (B [lit "."] [y] l).
  Qed.
End Raise.
