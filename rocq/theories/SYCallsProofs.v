(** Lemmas on the calls that shunting_yard_postfix makes to its visitor. *)
From Verif Require Import Base BaseProofs ShuntingYard SYSpec SYProofs SYCalls SYCallsSpec.
#[local] Arguments dkeys : simpl never.

Section Trace.
  Context {T : Type} `{EqDec T}.
  Variables lpar rpar : T.
  Variable ops : dict T Op.
  (** the calls, and the stack at the end (None: IndexError) *)
  Notation trace := (list (sy_call T) * option (list T))%type.
  Definition tbind (x : trace) (f : list T -> trace) : trace :=
    match x with (c, None) => (c, None) | (c, Some st) => (c ++ fst (f st), snd (f st)) end.
  Fixpoint close_tr (st : list T) : trace :=
    match st with
    | [] => ([], None)
    | o :: st' => if eqb o lpar then ([PopOperator o], Some st') else tbind ([PopOperator o; PushOutput o], Some st') close_tr
    end.
  Fixpoint pop_tr (op : Op) (st : list T) : trace :=
    match st with
    | [] => ([], Some [])
    | o :: st' => if preceeds ops o op then tbind ([PopOperator o; PushOutput o], Some st') (pop_tr op) else ([], Some st)
    end.
  Definition step_tr (st : list T) (a : T) : trace :=
    if eqb a lpar then ([PushOperator a], Some (a :: st))
    else if eqb a rpar then close_tr st
    else match dget ops a with
         | Some op => tbind (pop_tr op st) (fun st => ([PushOperator a], Some (a :: st)))
         | None => ([PushOutput a], Some st)
         end.
  Fixpoint tokens_tr (st : list T) (expr : list T) : trace :=
    match expr with [] => ([], Some st) | a :: expr' => tbind (step_tr st a) (fun st => tokens_tr st expr') end.
  Definition all_tr (expr : list T) : trace := tbind (tokens_tr [] expr) (fun st => (to_output st, Some [])).

  Lemma tbind_assoc x f g : tbind (tbind x f) g = tbind x (fun st => tbind (f st) g).
  Proof. destruct x as [c [st|]]; cbn; [|reflexivity]. destruct (f st) as [c' [st'|]]; cbn; rewrite ?app_assoc; reflexivity. Qed.
  Lemma tbind_ext x f g : (forall st, f st = g st) -> tbind x f = tbind x g.
  Proof. intros E. destruct x as [c [st|]]; cbn; rewrite ?E; reflexivity. Qed.
  Lemma tokens_tr_app st l1 l2 : tokens_tr st (l1 ++ l2) = tbind (tokens_tr st l1) (fun st => tokens_tr st l2).
  Proof.
    revert st. induction l1 as [|a l1 IH]; intros st; cbn [app tokens_tr]; [cbn; destruct (tokens_tr st l2); reflexivity|].
    rewrite tbind_assoc. apply tbind_ext. exact IH.
  Qed.

  (** *** the model performs the trace *)
  Section Run.
    Context {O V : Type}.
    Variable append : O -> T -> res O.
    Variables on_pop on_push on_out : V -> T -> res V.
    Notation perf := (perform_sy append on_pop on_push on_out).
    Lemma perform_app l1 : forall l2 out v, perf (l1 ++ l2) out v = rbind (perf l1 out v) (fun s => perf l2 (fst s) (snd s)).
    Proof.
      induction l1 as [|[o|o|a] l1 IH]; intros l2 out v; cbn [app perform_sy]; [reflexivity| | |].
      - destruct (on_push v o); cbn [rbind]; [apply IH|reflexivity].
      - destruct (on_pop v o); cbn [rbind]; [apply IH|reflexivity].
      - destruct (append out a); cbn [rbind]; [|reflexivity]. destruct (on_out v a); cbn [rbind]; [apply IH|reflexivity].
    Qed.
    Definition does {X} (x : trace) (s : O * V) (k : list T -> O * V -> res X) : res X :=
      rbind (perf (fst x) (fst s) (snd s)) (fun s => match snd x with Some st => k st s | None => Raise IndexError end).
    Lemma does_tbind {X} x f s (k : list T -> O * V -> res X) : does (tbind x f) s k = does x s (fun st s => does (f st) s k).
    Proof.
      unfold does. destruct x as [c [st|]]; cbn [tbind fst snd]; [|reflexivity]. rewrite perform_app, rbind_assoc. apply rbind_ext. reflexivity.
    Qed.
    Lemma does_pop {X} o st s (k : list T -> O * V -> res X) :
      does ([PopOperator o; PushOutput o], Some st) s k = rbind (c_told_pop on_pop s o) (fun s => rbind (c_push_output append on_out s o) (k st)).
    Proof.
      destruct s as [out v]. unfold does, c_told_pop, c_push_output. cbn [perform_sy fst snd]. destruct (on_pop v o); cbn [rbind fst snd]; [|reflexivity].
      destruct (append out o); cbn [rbind]; [|reflexivity]. destruct (on_out _ o); reflexivity.
    Qed.
    Lemma does_ext {X} x s (k k' : list T -> O * V -> res X) : (forall st s, k st s = k' st s) -> does x s k = does x s k'.
    Proof. intros E. unfold does. apply rbind_ext. intros s'. destruct (snd x); auto. Qed.
    Lemma does_rbind {X Y} x s (k : list T -> O * V -> res X) (f : X -> res Y) : rbind (does x s k) f = does x s (fun st s => rbind (k st s) f).
    Proof. unfold does. rewrite rbind_assoc. apply rbind_ext. intros s'. destruct (snd x); reflexivity. Qed.
    Lemma run_close st : forall s, c_close_loop lpar append on_pop on_out st s = does (close_tr st) s (fun st s => Ok (st, s)).
    Proof.
      induction st as [|o st IH]; intros s; cbn [c_close_loop close_tr]; [destruct s; reflexivity|]. destruct (eqb_spec o lpar) as [->|N].
      - destruct s as [out v]. unfold does, c_told_pop. cbn. destruct (on_pop v lpar); reflexivity.
      - rewrite does_tbind, does_pop. apply rbind_ext. intros s1. apply rbind_ext. exact IH.
    Qed.
    Lemma run_pop op st : forall s, c_pop_loop ops append on_pop on_out op st s = does (pop_tr op st) s (fun st s => Ok (st, s)).
    Proof.
      induction st as [|o st IH]; intros s; cbn [c_pop_loop pop_tr]; [destruct s; reflexivity|]. destruct (preceeds ops o op).
      - rewrite does_tbind, does_pop. apply rbind_ext. intros s1. apply rbind_ext. exact IH.
      - destruct s; reflexivity.
    Qed.
    Lemma run_step st s a : c_token_step lpar rpar ops append on_pop on_push on_out (st, s) a = does (step_tr st a) s (fun st s => Ok (st, s)).
    Proof.
      unfold c_token_step, step_tr. assert (P : forall s st, rbind (c_told_push on_push s a) (fun s => Ok (a :: st, s)) = does ([PushOperator a], Some (a :: st)) s (fun st s => Ok (st, s))).
      { intros [out v] st'. unfold does, c_told_push. cbn. destruct (on_push v a); reflexivity. }
      destruct (eqb a lpar); [apply P|]. destruct (eqb a rpar); [apply run_close|]. destruct (dget ops a) as [op|].
      - rewrite run_pop, does_rbind, does_tbind. apply does_ext. intros st' s'. cbn [rbind]. apply P.
      - destruct s as [out v]. unfold does, c_push_output. cbn. destruct (append out a); cbn; [|reflexivity]. destruct (on_out v a); reflexivity.
    Qed.
    Lemma run_tokens expr : forall st s, c_tokens_loop lpar rpar ops append on_pop on_push on_out (st, s) expr = does (tokens_tr st expr) s (fun st s => Ok (st, s)).
    Proof.
      induction expr as [|a expr IH]; intros st s; cbn [c_tokens_loop tokens_tr]; [destruct s; reflexivity|].
      rewrite run_step, does_rbind, does_tbind. apply does_ext. intros st' s'. cbn [rbind]. apply IH.
    Qed.
    Lemma run_flush st : forall s, c_flush append on_pop on_out st s = does (to_output st, Some []) s (fun _ s => Ok s).
    Proof.
      induction st as [|o st IH]; intros s; cbn [c_flush]; [destruct s; reflexivity|].
      change (to_output (o :: st)) with ([PopOperator o; PushOutput o] ++ to_output st).
      transitivity (does (tbind ([PopOperator o; PushOutput o], Some st) (fun st => (to_output st, Some []))) s (fun _ s => Ok s)); [|reflexivity].
      rewrite does_tbind, does_pop. apply rbind_ext. intros s1. apply rbind_ext. exact IH.
    Qed.
    Lemma run_all expr out v : shunting_yard_calls lpar rpar ops append on_pop on_push on_out expr (out, v) =
      match perf (fst (all_tr expr)) out v with
      | Ok s => match snd (all_tr expr) with Some _ => Ok s | None => Raise IndexError end
      | Raise e => Raise e
      end.
    Proof.
      unfold shunting_yard_calls, all_tr. rewrite run_tokens, does_rbind.
      transitivity (does (tbind (tokens_tr [] expr) (fun st => (to_output st, Some []))) (out, v) (fun _ s => Ok s)).
      - rewrite does_tbind. apply does_ext. intros st s. cbn [rbind]. apply run_flush.
      - unfold does. cbn [fst snd]. destruct (perf _ out v); reflexivity.
    Qed.
  End Run.

  (** *** the trace follows the stack *)
  Lemma follow_app l1 : forall l2 st, follow (l1 ++ l2) st = match follow l1 st with Some st' => follow l2 st' | None => None end.
  Proof.
    induction l1 as [|[o|o|a] l1 IH]; intros l2 st; cbn [app follow]; auto. destruct st as [|o' st]; [reflexivity|]. destruct (eqb o o'); [apply IH|reflexivity].
  Qed.
  Lemma follow_output l : forall st, follow (to_output l) (l ++ st) = Some st.
  Proof. induction l as [|o l IH]; intros st; cbn; [reflexivity|]. rewrite eqb_refl. apply IH. Qed.
  Lemma close_shape st : match close_tr st with
    | (c, Some st') => exists l, st = l ++ lpar :: st' /\ ~ In lpar l /\ c = to_output l ++ [PopOperator lpar]
    | (c, None) => ~ In lpar st /\ c = to_output st
    end.
  Proof.
    induction st as [|o st IH]; cbn [close_tr]; [split; [intros []|reflexivity]|]. destruct (eqb_spec o lpar) as [->|N]; [exists []; auto|].
    cbn [tbind]. destruct (close_tr st) as [c [st'|]]; cbn [fst snd].
    - destruct IH as (l & -> & I & ->). exists (o :: l). split; [reflexivity|]. split; [intros [K|K]; auto|reflexivity].
    - destruct IH as (I & ->). split; [intros [K|K]; auto|reflexivity].
  Qed.
  Lemma pop_shape o op st : dget ops o = Some op -> exists l st', pop_tr op st = (to_output l, Some st') /\ st = l ++ st' /\
    (forall o', In o' l -> binds_left ops o' o) /\ top_ok ops st' o.
  Proof.
    intros E. induction st as [|y st IH]; cbn [pop_tr]; [exists [], []; repeat split; intros ? []|]. destruct (preceeds ops y op) eqn:P.
    - destruct IH as (l & st' & EQ & -> & B & TO). exists (y :: l), st'. cbn [tbind]. rewrite EQ. repeat split; [|exact TO].
      intros o' [<-|I]; [|apply B, I]. now apply (preceeds_spec ops y o op E).
    - exists [], (y :: st). repeat split; [intros ? []|]. cbn. intros X. apply (preceeds_spec ops y o op E) in X. congruence.
  Qed.
  (** the stack just before an operator is pushed *)
  Definition pushed_well (st0 : list T) (l : list (sy_call T)) : Prop :=
    forall l1 o l2, l = l1 ++ PushOperator o :: l2 -> o <> lpar -> forall o' st, follow l1 st0 = Some (o' :: st) -> ~ binds_left ops o' o.
  Lemma pushed_well_app st0 l1 l2 st1 : follow l1 st0 = Some st1 -> pushed_well st0 l1 -> pushed_well st1 l2 -> pushed_well st0 (l1 ++ l2).
  Proof.
    intros F P1 P2 k1 o k2 E N o' st FO.
    assert (D : (exists m, l1 = k1 ++ PushOperator o :: m) \/ exists m, k1 = l1 ++ m /\ l2 = m ++ PushOperator o :: k2).
    { clear - E. revert k1 E. induction l1 as [|x l1 IH]; intros k1 E; [right; exists k1; auto|]. destruct k1 as [|y k1]; cbn [app] in E.
      - injection E as <- E. left. exists l1. reflexivity.
      - injection E as <- E. destruct (IH k1 E) as [(m & ->)|(m & -> & ->)]; [left; exists m; reflexivity|right; exists m; auto]. }
    destruct D as [(m & ->)|(m & -> & ->)]; [exact (P1 k1 o m eq_refl N o' st FO)|]. rewrite follow_app, F in FO. exact (P2 m o k2 eq_refl N o' st FO).
  Qed.
  Lemma output_no_push l o l1 l2 : to_output (T := T) l <> l1 ++ PushOperator o :: l2.
  Proof.
    intros E. assert (I : In (PushOperator o) (to_output l)) by (rewrite E; apply in_or_app; right; now left).
    apply in_flat_map in I. destruct I as (x & _ & [K|[K|[]]]); discriminate.
  Qed.
  Lemma pushed_well_output st l : pushed_well st (to_output l).
  Proof. intros l1 o l2 E. destruct (output_no_push _ _ _ _ E). Qed.
  Lemma pushed_well_one st c : (forall o, c = PushOperator o -> o = lpar \/ top_ok ops st o) -> pushed_well st [c].
  Proof.
    intros K l1 o l2 E N o' st' FO. destruct l1 as [|x l1]; [|injection E as _ E; destruct l1; discriminate]. injection E as -> _.
    destruct (K o eq_refl) as [->|TO]; [congruence|]. cbn in FO. injection FO as ->. exact TO.
  Qed.
  Hypothesis NE : lpar <> rpar.
  Lemma step_shape st a : match step_tr st a with
    | (c, Some st') => calls_of lpar rpar ops a c /\ follow c st = Some st' /\ pushed_well st c
    | (c, None) => a = rpar /\ ~ In lpar st /\ c = to_output st
    end.
  Proof.
    unfold step_tr. destruct (eqb_spec a lpar) as [->|N1].
    - split; [left; auto|]. split; [reflexivity|]. apply pushed_well_one. intros o E. injection E as <-. now left.
    - destruct (eqb_spec a rpar) as [->|N2].
      + pose proof (close_shape st) as C. destruct (close_tr st) as [c [st'|]]; [|destruct C; auto]. destruct C as (l & -> & I & ->).
        split; [right; left; eauto|]. split; [rewrite follow_app, follow_output; cbn; now rewrite eqb_refl|].
        eapply pushed_well_app; [apply follow_output|apply pushed_well_output|]. apply pushed_well_one. discriminate.
      + destruct (dget ops a) as [op|] eqn:E.
        * destruct (pop_shape a op st E) as (l & st' & -> & -> & B & TO). cbn [tbind fst snd].
          split; [|split; [rewrite follow_app, follow_output; reflexivity|]].
          -- right. right. left. split; [|exists l; auto]. split; [exact N1|]. split; [exact N2|]. eapply dget_Some_key. exact E.
          -- eapply pushed_well_app; [apply follow_output|apply pushed_well_output|]. apply pushed_well_one. intros o K. injection K as <-. now right.
        * split; [|split; [reflexivity|apply pushed_well_one; discriminate]]. do 3 right. split; [|reflexivity]. split; [exact N1|]. split; [exact N2|]. now apply dget_None.
  Qed.
  Lemma tokens_shape expr : forall st, exists read rest calls l, expr = read ++ rest /\ Forall2 (calls_of lpar rpar ops) read calls /\
    match tokens_tr st expr with
    | (c, Some st') => rest = [] /\ l = [] /\ c = concat calls /\ follow c st = Some st' /\ pushed_well st c
    | (c, None) => (exists q, rest = rpar :: q) /\ ~ In lpar l /\ c = concat calls ++ to_output l /\ follow c st = Some [] /\ pushed_well st c
    end.
  Proof.
    induction expr as [|a expr IH]; intros st; cbn [tokens_tr].
    - exists [], [], [], []. repeat split; [constructor|]. intros [|x l1] o l2 E; discriminate.
    - pose proof (step_shape st a) as S. destruct (step_tr st a) as [c [st1|]]; cbn [tbind].
      + destruct S as (C & F & P). destruct (IH st1) as (read & rest & calls & l & -> & F2 & K). exists (a :: read), rest, (c :: calls), l.
        split; [reflexivity|]. split; [now constructor|]. destruct (tokens_tr st1 (read ++ rest)) as [c' [st'|]]; cbn [fst snd].
        * destruct K as (-> & -> & -> & F' & P'). repeat split; [|eapply pushed_well_app; eauto]. rewrite follow_app, F. exact F'.
        * destruct K as (Q & I & -> & F' & P'). split; [exact Q|]. split; [exact I|]. split; [cbn [concat]; now rewrite app_assoc|]. split; [rewrite follow_app, F; exact F'|eapply pushed_well_app; eauto].
      + destruct S as (-> & I & ->). exists [], (rpar :: expr), [], st. split; [reflexivity|]. split; [constructor|]. split; [eauto|]. split; [exact I|].
        split; [reflexivity|]. split; [|apply pushed_well_output]. pose proof (follow_output st []) as F. now rewrite app_nil_r in F.
  Qed.
  Lemma all_shape expr : exists read rest calls l, expr = read ++ rest /\ Forall2 (calls_of lpar rpar ops) read calls /\
    fst (all_tr expr) = concat calls ++ to_output l /\ follow (fst (all_tr expr)) [] = Some [] /\ pushed_well [] (fst (all_tr expr)) /\
    match snd (all_tr expr) with Some _ => rest = [] | None => (exists q, rest = rpar :: q) /\ ~ In lpar l end.
  Proof.
    unfold all_tr. destruct (tokens_shape expr []) as (read & rest & calls & l & -> & F2 & K). destruct (tokens_tr [] (read ++ rest)) as [c [st|]]; cbn [tbind fst snd].
    - destruct K as (-> & -> & -> & F & P). exists read, [], calls, st. split; [reflexivity|]. split; [exact F2|]. split; [reflexivity|]. pose proof (follow_output st []) as FO. rewrite app_nil_r in FO.
      split; [rewrite follow_app, F; exact FO|]. split; [|reflexivity]. eapply pushed_well_app; [exact F|exact P|apply pushed_well_output].
    - destruct K as (Q & I & -> & F & P). exists read, rest, calls, l. auto 8.
  Qed.

  (** *** the trace of a tree *)
  Hypothesis NLops : ~ In lpar (dkeys ops).
  Lemma close_tr_pops l s : (forall o, In o l -> o <> lpar) -> close_tr (l ++ lpar :: s) = (to_output l ++ [PopOperator lpar], Some s).
  Proof.
    induction l as [|o l IH]; intros HL; cbn [app close_tr]; [rewrite eqb_refl; reflexivity|].
    destruct (eqb_spec o lpar) as [->|N]; [destruct (HL lpar); [left|]; reflexivity|]. cbn [tbind]. rewrite IH by (intros o' I; apply HL; now right). reflexivity.
  Qed.
  Lemma pop_tr_pops o p l s : dget ops o = Some p -> (forall o', In o' l -> binds_left ops o' o) -> top_ok ops s o -> pop_tr p (l ++ s) = (to_output l, Some s).
  Proof.
    intros E. induction l as [|o' l IH]; intros HL TO; cbn [app pop_tr].
    - destruct s as [|o' s]; cbn [pop_tr]; [reflexivity|]. destruct (preceeds ops o' p) eqn:X; [|reflexivity]. apply (preceeds_spec ops o' o p E) in X. destruct (TO X).
    - rewrite (proj2 (preceeds_spec ops o' o p E)) by (apply HL; now left). cbn [tbind]. rewrite IH; [reflexivity|intros o'' I; apply HL; now right|exact TO].
  Qed.
  Lemma step_tr_operator o l s : operator lpar rpar ops o -> (forall o', In o' l -> binds_left ops o' o) -> top_ok ops s o ->
    step_tr (l ++ s) o = (to_output l ++ [PushOperator o], Some (o :: s)).
  Proof.
    intros Oo HL TO. destruct (operator_get lpar rpar ops o Oo) as (p & Ep & E1 & E2). unfold step_tr. rewrite E1, E2, Ep, (pop_tr_pops o p l s Ep HL TO). reflexivity.
  Qed.
  Lemma step_tr_operand a s : operand lpar rpar ops a -> step_tr s a = ([PushOutput a], Some s).
  Proof. intros (N1 & N2 & N3). unfold step_tr. rewrite (proj2 (eqb_neq _ _) N1), (proj2 (eqb_neq _ _) N2), (proj2 (dget_None _ _) N3). reflexivity. Qed.
  Lemma tree_tr t : fits lpar rpar ops t -> forall s, (forall o, In o (left_border t) -> top_ok ops s o) ->
    tokens_tr s (infix lpar rpar t) = (reading lpar t, Some (rev (right_border t) ++ s)).
  Proof.
    induction t as [a|x IH a|l IHl o r IHr|x IH o|o x IH|x IH]; cbn [fits right_border left_border infix reading].
    - intros F s _. cbn [tokens_tr]. rewrite (step_tr_operand a s F). reflexivity.
    - intros (F & Fa & E) s TO. rewrite E in *. rewrite tokens_tr_app, (IH F s TO). cbn [tbind rev app tokens_tr]. rewrite (step_tr_operand a s Fa). reflexivity.
    - intros (F1 & Oo & F2 & B1 & B2) s TO. rewrite tokens_tr_app, (IHl F1) by (intros o' I; apply TO, in_app_iff; left; exact I).
      cbn [tbind tokens_tr]. rewrite (step_tr_operator o) by (exact Oo || (intros o' I; apply B1, in_rev, I) || (apply TO, in_app_iff; right; left; reflexivity)).
      cbn [tbind]. rewrite (IHr F2) by (intros o' I; apply B2; exact I). cbn [fst snd rev]. rewrite <- !app_assoc. reflexivity.
    - intros (F1 & Oo & B1) s TO. rewrite tokens_tr_app, (IH F1) by (intros o' I; apply TO, in_app_iff; left; exact I).
      cbn [tbind tokens_tr]. rewrite (step_tr_operator o) by (exact Oo || (intros o' I; apply B1, in_rev, I) || (apply TO, in_app_iff; right; left; reflexivity)).
      cbn [tbind fst snd rev app]. rewrite app_nil_r. reflexivity.
    - intros (Oo & F & B) s TO. cbn [tokens_tr]. pose proof (step_tr_operator o [] s Oo (fun o' X => match X with end) (TO o (or_introl eq_refl))) as X. cbn [app] in X. rewrite X. clear X.
      cbn [tbind]. rewrite (IH F) by (intros o' I; apply B; exact I). cbn [fst snd rev to_output flat_map app]. rewrite <- app_assoc. reflexivity.
    - intros F s _. cbn [tokens_tr]. unfold step_tr at 1. rewrite eqb_refl. cbn [tbind].
      assert (NB : forall o', ~ binds_left ops lpar o').
      { intros o' (p1 & p2 & E1 & _). apply NLops. eapply dget_Some_key. exact E1. }
      rewrite tokens_tr_app, (IH F) by (intros o' I; cbn; apply NB). cbn [tbind tokens_tr]. unfold step_tr.
      assert (ER : eqb rpar lpar = false) by (apply eqb_neq; congruence). rewrite ER, eqb_refl.
      rewrite close_tr_pops by (intros o I; apply in_rev in I; apply (proj1 (border_operator lpar rpar ops x F)) in I; apply I). cbn [tbind fst snd rev app]. rewrite app_nil_r. reflexivity.
  Qed.
  Lemma all_tree t : fits lpar rpar ops t -> all_tr (infix lpar rpar t) = (reading lpar t ++ to_output (rev (right_border t)), Some []).
  Proof. intros F. unfold all_tr. rewrite (tree_tr t F []) by (intros o _; exact I). cbn. rewrite app_nil_r. reflexivity. Qed.

  Lemma outputs_app (l1 l2 : list (sy_call T)) : outputs (l1 ++ l2) = outputs l1 ++ outputs l2.
  Proof. apply flat_map_app. Qed.
  Lemma outputs_to_output l : outputs (to_output (T := T) l) = l.
  Proof. induction l; cbn; [reflexivity|]. now f_equal. Qed.
  Lemma outputs_reading t : outputs (reading lpar t) ++ rev (right_border t) = postfix t \/ ~ fits lpar rpar ops t.
  Proof.
    induction t as [a|x IH a|l IHl o r IHr|x IH o|o x IH|x IH]; cbn [fits right_border infix reading postfix rev]; [left; reflexivity| | | | |].
    - destruct IH as [IH|IH]; [|right; tauto]. destruct (right_border x) as [|y l] eqn:E; [|right; intros (_ & _ & K); discriminate]. left. cbn [rev] in *. rewrite outputs_app, app_nil_r in *. rewrite IH. reflexivity.
    - destruct IHl as [IHl|IH]; [|right; tauto]. destruct IHr as [IHr|IH]; [|right; tauto]. left. rewrite !outputs_app, outputs_to_output. cbn [outputs flat_map app]. fold (outputs (reading lpar r)).
      rewrite <- !app_assoc, (app_assoc (outputs (reading lpar l))), IHl. f_equal. rewrite app_assoc, IHr. reflexivity.
    - destruct IH as [IH|IH]; [|right; tauto]. left. rewrite !outputs_app, outputs_to_output. cbn [outputs flat_map app]. rewrite app_nil_r, IH. reflexivity.
    - destruct IH as [IH|IH]; [|right; tauto]. left. cbn [outputs flat_map app]. fold (outputs (reading lpar x)). rewrite app_assoc, IH. reflexivity.
    - destruct IH as [IH|IH]; [|right; tauto]. left. cbn [outputs flat_map app]. fold (outputs (reading lpar x ++ to_output (rev (right_border x)) ++ [PopOperator lpar])). rewrite !outputs_app, outputs_to_output. cbn. rewrite !app_nil_r. exact IH.
  Qed.

  (** *** against the model without visitor *)
  Section Same.
    Context {O V : Type}.
    Variable append : O -> T -> res O.
    Variables on_pop on_push on_out : V -> T -> res V.
    Notation perf := (perform_sy append on_pop on_push on_out).
    Lemma same_close st : forall out, close_loop lpar append st out = rbind (pushes append out (outputs (fst (close_tr st)))) (fun out => match snd (close_tr st) with Some st' => Ok (st', out) | None => Raise IndexError end).
    Proof.
      induction st as [|o st IH]; intros out; cbn [close_loop close_tr]; [reflexivity|]. destruct (eqb_spec o lpar) as [->|N]; [reflexivity|].
      cbn [tbind fst snd]. rewrite outputs_app. cbn [outputs flat_map app pushes]. fold (outputs (fst (close_tr st))). rewrite rbind_assoc. apply rbind_ext. exact IH.
    Qed.
    Lemma same_pop op st : forall out, pop_loop ops append op st out = rbind (pushes append out (outputs (fst (pop_tr op st)))) (fun out => match snd (pop_tr op st) with Some st' => Ok (st', out) | None => Raise IndexError end).
    Proof.
      induction st as [|o st IH]; intros out; cbn [pop_loop pop_tr]; [reflexivity|]. destruct (preceeds ops o op); [|reflexivity].
      cbn [tbind fst snd]. rewrite outputs_app. cbn [outputs flat_map app pushes]. fold (outputs (fst (pop_tr op st))). rewrite rbind_assoc. apply rbind_ext. exact IH.
    Qed.
    Lemma same_step st out a : token_step lpar rpar ops append (st, out) a = rbind (pushes append out (outputs (fst (step_tr st a)))) (fun out => match snd (step_tr st a) with Some st' => Ok (st', out) | None => Raise IndexError end).
    Proof.
      unfold token_step, step_tr. destruct (eqb a lpar); [reflexivity|]. destruct (eqb a rpar); [apply same_close|]. destruct (dget ops a) as [op|] eqn:E.
      - rewrite same_pop. destruct (pop_shape a op st E) as (l & st' & -> & _). cbn [tbind fst snd]. rewrite outputs_app, app_nil_r, rbind_assoc. reflexivity.
      - cbn. rewrite rbind_assoc. reflexivity.
    Qed.
    Lemma same_tokens expr : forall st out, tokens_loop lpar rpar ops append (st, out) expr = rbind (pushes append out (outputs (fst (tokens_tr st expr)))) (fun out => match snd (tokens_tr st expr) with Some st' => Ok (st', out) | None => Raise IndexError end).
    Proof.
      induction expr as [|a expr IH]; intros st out; cbn [tokens_loop tokens_tr]; [reflexivity|]. rewrite same_step.
      destruct (step_tr st a) as [c [st'|]]; cbn [tbind fst snd]; [|rewrite rbind_assoc; reflexivity]. rewrite outputs_app, pushes_app, !rbind_assoc. apply rbind_ext. intros out'. cbn [rbind]. apply IH.
    Qed.
    Lemma same_all expr out : shunting_yard_postfix lpar rpar ops append expr out =
      rbind (pushes append out (outputs (fst (all_tr expr)))) (fun out => match snd (all_tr expr) with Some _ => Ok out | None => Raise IndexError end).
    Proof.
      unfold shunting_yard_postfix, all_tr. rewrite same_tokens. destruct (tokens_tr [] expr) as [c [st'|]]; cbn [tbind fst snd]; [|rewrite rbind_assoc; reflexivity].
      rewrite outputs_app, outputs_to_output, pushes_app, !rbind_assoc. apply rbind_ext. intros out'. cbn [rbind]. rewrite flush_pushes. destruct (pushes append out' st'); reflexivity.
    Qed.
    Hypothesis quiet : forall v a, (exists v', on_pop v a = Ok v') /\ (exists v', on_push v a = Ok v') /\ (exists v', on_out v a = Ok v').
    Lemma quiet_perform l : forall out v, match perf l out v with Ok (out', _) => pushes append out (outputs l) = Ok out' | Raise e => pushes append out (outputs l) = Raise e end.
    Proof.
      induction l as [|[o|o|a] l IH]; intros out v; cbn [perform_sy outputs flat_map app pushes]; [reflexivity| | |].
      - destruct (quiet v o) as (_ & (v' & ->) & _). apply IH.
      - destruct (quiet v o) as ((v' & ->) & _). apply IH.
      - destruct (append out a) as [out'|e]; cbn [rbind]; [|reflexivity]. destruct (quiet v a) as (_ & _ & v' & ->). apply IH.
    Qed.
  End Same.
End Trace.
