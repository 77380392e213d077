(** Theorem C101: compiling an escaped text. *)
From Coq Require Import String.
From Verif Require Import Str BaseProofs Graph Automaton Nfa NfaSpec NfaProofs Thompson ThompsonSpec ThompsonProofs ThompsonProofs4 TThompson ShuntingYard Regexp RegexpSpec RegexpProofs RegexpProofs4 TRegexp ReEscape ReEscapeProofs.
Open Scope string_scope.
Open Scope nat_scope.
Open Scope list_scope.

Section C101.
  Variables (ordc : set_order char) (ordn : set_order nat) (alphabet : list char).
  Hypothesis OC : valid_order ordc.
  Hypothesis ON : valid_order ordn.

  (** C101, full statement (false, see C101_escape_refuted): for every text [w], [re_escape w] compiles to an NFA accepting [w] and
      nothing else. It holds of the texts without ^, $, backslash (nor the Greek epsilon). *)
  Theorem C101_escape_partial w : ~ In (ch "^") w -> ~ In (ch "$") w -> ~ In (ch "\") w -> ~ In epsilon w ->
    exists g, compile_nfa ordc ordn alphabet (re_escape w) = Ok g /\
      forall v, ~ In epsilon v -> (N_accepts g v = Some true <-> v = w).
  Proof.
    intros N1 N2 N3 NE. destruct w as [|c w].
    - destruct (C28_empty ordc ordn alphabet) as (x & E & G & H). exists (fst (fst x)). split; [unfold compile_nfa; cbn [re_escape flat_map]; rewrite E; reflexivity|].
      exact H.
    - assert (C : clean (c :: w)).
      { apply Forall_forall. intros d I [<-|[<-|[<-|[]]]]; contradiction. }
      inversion C as [|? ? C1 C2]; subst.
      destruct (cats_ok alphabet w (atom c) [c]) as (W & S & _ & D).
      + exact C2.
      + intros X. apply NE. right. exact X.
      + apply wf_atom; [exact C1|]. intros ->. apply NE. left. reflexivity.
      + apply safe_atom.
      + rewrite level_atom. lia.
      + apply denote_atom. exact C1.
      + destruct (C28_compile_partial ordc ordn alphabet OC ON _ W S) as (x & E & G & H). exists (fst (fst x)). split.
        * unfold compile_nfa. rewrite show_cats, show_atom, <- re_escape_app in E. cbn [app] in E. rewrite E. reflexivity.
        * intros v NV. rewrite <- (D v). exact (H v NV).
  Qed.
  (** The others do not compile at all: the lone backslash is taken for an escape sequence. *)
  Theorem C101_escape_raises_partial w c : In c w -> c = ch "^" \/ c = ch "$" \/ c = ch "\" -> ~ In epsilon w ->
    compile_nfa ordc ordn alphabet (re_escape w) = Raise IndexError.
  Proof.
    intros I Hc NE. assert (X : exists u d v, w = u ++ d :: v /\ clean u /\ In d troubles).
    { clear NE. revert I. induction w as [|a w IH]; intros I; [destruct I|]. destruct (mem a troubles) eqn:M.
      - apply mem_spec in M. exists [], a, w. split; [reflexivity|]. split; [constructor|exact M].
      - apply mem_false in M. destruct I as [<-|I]; [exfalso; apply M; cbn; intuition|]. destruct (IH I) as (u & d & v & -> & C & T).
        exists (a :: u), d, v. split; [reflexivity|]. split; [constructor; assumption|exact T]. }
    destruct X as (u & d & v & -> & C & T). unfold compile_nfa. rewrite (compile_trouble ordc ordn alphabet OC u d v C); [reflexivity| |exact T].
    intros X. apply NE. apply in_or_app. left. exact X.
  Qed.
  (** So an escaped text compiles iff it has none of these characters. *)
  Theorem C101_escape_iff_partial w : ~ In epsilon w ->
    ((exists g, compile_nfa ordc ordn alphabet (re_escape w) = Ok g) <-> ~ In (ch "^") w /\ ~ In (ch "$") w /\ ~ In (ch "\") w).
  Proof.
    intros NE. split.
    - intros (g & E). repeat split; intros X; [rewrite (C101_escape_raises_partial w _ X) in E|rewrite (C101_escape_raises_partial w _ X) in E|rewrite (C101_escape_raises_partial w _ X) in E]; auto; discriminate.
    - intros (N1 & N2 & N3). destruct (C101_escape_partial w N1 N2 N3 NE) as (g & E & _). exists g. exact E.
  Qed.
End C101.

(** Two different texts have different escapes; every character of the text is kept, in the same order. *)
Theorem C101_injective_partial u v : re_escape u = re_escape v -> u = v.
Proof.
  revert v. induction u as [|c u IH]; intros [|d v] E; rewrite ?re_escape_cons in E; [reflexivity| | |].
  - destruct (mem d specials); discriminate.
  - destruct (mem c specials); discriminate.
  - destruct (mem c specials) eqn:Mc, (mem d specials) eqn:Md; cbn [app] in E.
    + injection E as -> E. f_equal. apply IH, E.
    + injection E as <- _. vm_compute in Md. discriminate.
    + injection E as -> _. vm_compute in Mc. discriminate.
    + injection E as -> E. f_equal. apply IH, E.
Qed.

(** re_escape("a^b") raises IndexError when compiled; the escape of the Greek epsilon (code point 949) accepts the empty word. *)
Theorem C101_escape_refuted : exists w, ~ In epsilon w /\ compile_nfa idc idn [] (re_escape w) = Raise IndexError.
Proof. exists (lit "a^b"). split; [apply mem_false; reflexivity|vm_compute; reflexivity]. Qed.
Theorem C101_epsilon_refuted : nfa_matches (re_escape [949%N]) [] = Some true.
Proof. vm_compute. reflexivity. Qed.

(** the example of the documentation, and a text to which C101_escape_partial applies *)
Example C101_example : re_escape (lit "(a.b)+") = lit "\(a\.b\)\+" /\
  map (fun w => nfa_matches (re_escape (lit "[x]{2,3}|y d")) (lit w)) ["[x]{2,3}|y d"; "xx"; "y d"; ""] = [Some true; Some false; Some false; Some false] /\
  map (fun c => mem c (lit "[x]{2,3}|y d")) [ch "^"; ch "$"; ch "\"; epsilon] = [false; false; false; false].
Proof. vm_compute. auto. Qed.

Print Assumptions C101_escape_partial. Print Assumptions C101_escape_raises_partial. Print Assumptions C101_escape_iff_partial.
Print Assumptions C101_injective_partial. Print Assumptions C101_escape_refuted. Print Assumptions C101_epsilon_refuted.
