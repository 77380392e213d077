(** Lemmas on the callbacks of graph_copy and automaton_copy *)
From Verif Require Import Graph Search SearchSpec SearchProofs SearchProofs2 SearchUsers SearchUsersSpec SearchUsersProofs CopyProofs CopyCalls CopyCallsSpec Base BaseProofs.
#[local] Arguments dkeys : simpl never.

Section C.
  Context {E E' G : Type} {EE : EqDec E}.
  Variables (src tgt : E -> nat) (vrelevant : nat -> bool) (erelevant : E -> bool).
  Variables (add_vertex : G -> G * res nat) (add_edge : E -> G -> nat -> nat -> G * res (E' * bool)).
  (** the class of g_dup: [I g pv pe]: g is the copy described by pv and pe *)
  Variables (I : G -> dict nat nat -> dict E E' -> Prop) (good : E -> Prop).
  Hypothesis IV : forall g pv pe u, I g pv pe -> ~ In u (dkeys pv) -> exists g' u', add_vertex g = (g', Ok u') /\ I g' (pv ++ [(u, u')]) pe.
  Hypothesis IE : forall g pv pe e u' v', I g pv pe -> good e -> dget pv (src e) = Some u' -> dget pv (tgt e) = Some v' -> ~ In e (dkeys pe) ->
    exists g' e' b, add_edge e g u' v' = (g', Ok (e', b)) /\ I g' pv (pe ++ [(e, e')]).
  Notation call := (dup_call E E' G).
  Variable s : nat.

  Definition legal (l1 : list call) (c : call) (l2 : list call) : Prop :=
    I (given c) (told_vertices (l1 ++ [c])) (told_edges (l1 ++ [c])) /\
    match c with
    | DupVertex u _ _ => ~ In u (map fst (told_vertices l1)) /\ (l1 = [] \/ exists e e' h l2', l2 = DupEdge e e' h :: l2' /\ tgt e = u)
    | DupEdge e _ _ => ~ In e (map fst (told_edges l1)) /\ In (src e) (map fst (told_vertices l1)) /\ In (tgt e) (map fst (told_vertices l1))
    end.
  Definition all_legal (l : list call) := forall l1 c l2, l = l1 ++ c :: l2 -> legal l1 c l2.
  Lemma legal_ext l1 c l2 d : legal l1 c l2 -> legal l1 c (l2 ++ d).
  Proof.
    intros [A B]. split; [exact A|]. destruct c; [|exact B]. destruct B as [B1 [B2|(e & e' & h & l2' & -> & T)]]; (split; [exact B1|]); [left; exact B2|].
    right. exists e, e', h, (l2' ++ d). split; [reflexivity|exact T].
  Qed.
  Lemma split_app {X} (l d l1 : list X) c l2 : l ++ d = l1 ++ c :: l2 -> (exists l2', l = l1 ++ c :: l2' /\ l2 = l2' ++ d) \/ (exists d1, l1 = l ++ d1 /\ d = d1 ++ c :: l2).
  Proof.
    revert l1. induction l as [|x l IH]; intros l1 H; [right; exists l1; auto|]. destruct l1 as [|y l1]; cbn in H; injection H as -> H.
    - left. exists l. auto.
    - destruct (IH _ H) as [(l2' & -> & ->)|(d1 & -> & ->)]; [left; exists l2'; auto|right; exists d1; auto].
  Qed.
  Lemma all_legal_app l d : all_legal l -> (forall d1 c d2, d = d1 ++ c :: d2 -> legal (l ++ d1) c d2) -> all_legal (l ++ d).
  Proof.
    intros A B l1 c l2 H. destruct (split_app _ _ _ _ _ H) as [(l2' & H1 & ->)|(d1 & -> & H1)]; [apply legal_ext, A, H1|apply B, H1].
  Qed.

  (** a copy in progress, with the calls made so far *)
  Record cst := Cst { k_g : G; k_pv : dict nat nat; k_pe : dict E E'; k_done : list nat; k_calls : list call }.
  Definition with_user {St} (k : cst) (user : St) : ccopying E E' G St := CCopying (k_g k) (k_pv k) (k_pe k) (k_done k) user.
  Record kinv (k : cst) : Prop := {
    ki_i : I (k_g k) (k_pv k) (k_pe k);
    ki_v : told_vertices (k_calls k) = k_pv k;
    ki_e : told_edges (k_calls k) = k_pe k;
    ki_done : forall x, In x (k_done k) <-> In x (dkeys (k_pv k));
    ki_legal : all_legal (k_calls k) }.

  Lemma told_v_app l d : told_vertices (l ++ d) = told_vertices l ++ @told_vertices E E' G d.
  Proof. apply flat_map_app. Qed.
  Lemma told_e_app l d : told_edges (l ++ d) = told_edges l ++ @told_edges E E' G d.
  Proof. apply flat_map_app. Qed.
  Lemma perform_app {St} on_v on_e d : forall d' (user : St), perform on_v on_e (d ++ d') user = rbind (perform on_v on_e d user) (@perform E E' G St on_v on_e d').
  Proof.
    induction d as [|c d IH]; intros d' user; [reflexivity|]. cbn [app perform]. destruct (match c with DupVertex _ _ _ => _ | DupEdge _ _ _ => _ end); [apply IH|reflexivity].
  Qed.

  Lemma k_dup u k : kinv k -> ~ In u (dkeys (k_pv k)) -> exists g' u', I g' (k_pv k ++ [(u, u')]) (k_pe k) /\
    forall St on_v (user : St), c_dup_vertex (E := E) (E' := E') add_vertex on_v u (with_user k user) =
      rbind (perform (E := E) (E' := E') on_v None [DupVertex u u' g'] user) (fun user => Ok (with_user (Cst g' (k_pv k ++ [(u, u')]) (k_pe k) (sadd u (k_done k)) []) user, u')).
  Proof.
    clear IE. intros K N. destruct (IV _ _ _ u (ki_i _ K) N) as (g' & u' & A & J). exists g', u'. split; [exact J|]. intros St on_v user. unfold c_dup_vertex, with_user. cbn [cc_dup cc_vertices cc_edges cc_done cc_user k_g k_pv k_pe k_done]. rewrite A, (dset_fresh _ _ _ N).
    cbn [perform]. destruct on_v as [f|]; [|reflexivity]. destruct (f u u' g' user); reflexivity.
  Qed.
  Lemma k_copy_edge e k : kinv k -> k_calls k <> [] -> good e -> In (src e) (dkeys (k_pv k)) -> ~ In e (dkeys (k_pe k)) ->
    exists k' d, kinv k' /\ k_calls k' = k_calls k ++ d /\ (forall x, In x (dkeys (k_pv k')) <-> In x (dkeys (k_pv k)) \/ x = tgt e) /\ dkeys (k_pe k') = dkeys (k_pe k) ++ [e] /\
    forall St on_v on_e (user : St), c_copy_edge src tgt add_vertex add_edge on_v on_e e (with_user k user) = rbind (perform on_v on_e d user) (fun user => Ok (with_user k' user)).
  Proof.
    intros K NE GE S N. apply key_dget in S. destruct S as (u' & GU). unfold c_copy_edge.
    destruct (mem_reflect (tgt e) (k_done k)) as [Mv|Mv].
    - pose proof (proj1 (ki_done _ K _) Mv) as IK. destruct (key_dget _ _ IK) as (v' & GV).
      destruct (IE _ _ _ e u' v' (ki_i _ K) GE GU GV N) as (g' & e' & b & A & J).
      exists (Cst g' (k_pv k) (k_pe k ++ [(e, e')]) (k_done k) (k_calls k ++ [DupEdge e e' g'])), [DupEdge e e' g'].
      split; [|split; [reflexivity|split; [|split; [apply dkeys_snoc|]]]].
      + constructor; cbn [k_g k_pv k_pe k_done k_calls].
        * exact J.
        * rewrite told_v_app, (ki_v _ K). cbn. apply app_nil_r.
        * rewrite told_e_app, (ki_e _ K). reflexivity.
        * apply (ki_done _ K).
        * apply all_legal_app; [apply (ki_legal _ K)|]. intros [|x d1] c d2 H; [|destruct d1; discriminate]. injection H as <- <-. rewrite app_nil_r. split.
          -- cbn [given]. rewrite told_v_app, told_e_app, (ki_v _ K), (ki_e _ K). cbn [told_vertices told_edges flat_map app]. rewrite app_nil_r. exact J.
          -- rewrite (ki_v _ K), (ki_e _ K). split; [exact N|]. split; [|exact IK]. apply dget_In in GU. apply (in_map fst) in GU. exact GU.
      + intros x. cbn [k_pv]. split; [auto|]. intros [X| ->]; assumption.
      + intros St on_v on_e user. unfold with_user. cbn [cc_dup cc_vertices cc_edges cc_done cc_user k_g k_pv k_pe k_done]. rewrite GU, (proj2 (mem_spec _ _) Mv), GV. cbn [rbind cc_dup cc_edges cc_vertices cc_done cc_user]. rewrite A, (dset_fresh _ _ _ N). cbn [perform].
        destruct on_e as [f|]; [|reflexivity]. destruct (f e e' g' user); reflexivity.
    - assert (IK : ~ In (tgt e) (dkeys (k_pv k))) by (rewrite <- (ki_done _ K); exact Mv).
      destruct (k_dup (tgt e) k K IK) as (g1 & v' & J1 & D1).
      destruct (IE _ _ _ e u' v' J1 GE (dget_snoc _ _ _ _ _ GU) (dget_snoc_new _ _ _ IK) N) as (g' & e' & b & A & J).
      exists (Cst g' (k_pv k ++ [(tgt e, v')]) (k_pe k ++ [(e, e')]) (sadd (tgt e) (k_done k)) (k_calls k ++ [DupVertex (tgt e) v' g1; DupEdge e e' g'])), [DupVertex (tgt e) v' g1; DupEdge e e' g'].
      split; [|split; [reflexivity|split; [|split; [apply dkeys_snoc|]]]].
      + constructor; cbn [k_g k_pv k_pe k_done k_calls].
        * exact J.
        * rewrite told_v_app, (ki_v _ K). reflexivity.
        * rewrite told_e_app, (ki_e _ K). reflexivity.
        * intros x. rewrite dkeys_snoc, In_sadd, in_app_iff, (ki_done _ K). cbn. intuition.
        * apply all_legal_app; [apply (ki_legal _ K)|]. intros [|x [|y d1]] c d2 H; [| |destruct d1; discriminate].
          -- injection H as <- <-. rewrite app_nil_r. split.
             ++ cbn [given]. rewrite told_v_app, told_e_app, (ki_v _ K), (ki_e _ K). cbn [told_vertices told_edges flat_map app]. rewrite app_nil_r. exact J1.
             ++ rewrite (ki_v _ K). split; [exact IK|]. right. exists e, e', g', []. auto.
          -- injection H as <- <- <-. split.
             ++ cbn [given]. rewrite !told_v_app, !told_e_app, (ki_v _ K), (ki_e _ K). cbn [told_vertices told_edges flat_map app]. rewrite !app_nil_r. exact J.
             ++ rewrite told_v_app, told_e_app, (ki_v _ K), (ki_e _ K). cbn [told_vertices told_edges flat_map app]. rewrite app_nil_r, map_app. split; [exact N|]. split; apply in_or_app; [left|right; left; reflexivity].
                apply dget_In in GU. apply (in_map fst) in GU. exact GU.
      + intros x. cbn [k_pv]. rewrite dkeys_snoc, in_app_iff. cbn. intuition.
      + intros St on_v on_e user. rewrite D1. unfold with_user at 1 2 3. cbn [cc_dup cc_vertices cc_edges cc_done cc_user k_g k_pv k_pe k_done]. rewrite GU, (proj2 (mem_false _ _) Mv). cbn [perform].
        assert (Q : forall user, match add_edge e g1 u' v' with
            | (g, Ok (e_dup, _)) => match on_e with
                | Some f => rbind (f e e_dup g user) (fun user0 => Ok (CCopying g (k_pv k ++ [(tgt e, v')]) (dset (k_pe k) e e_dup) (sadd (tgt e) (k_done k)) user0))
                | None => Ok (CCopying g (k_pv k ++ [(tgt e, v')]) (dset (k_pe k) e e_dup) (sadd (tgt e) (k_done k)) user) end
            | (_, Raise x) => Raise x end =
          rbind (match on_e with Some f => f e e' g' user | None => Ok user end) (fun user => Ok (CCopying g' (k_pv k ++ [(tgt e, v')]) (k_pe k ++ [(e, e')]) (sadd (tgt e) (k_done k)) user))).
        { clear user. intros user. rewrite A, (dset_fresh _ _ _ N). destruct on_e as [f|]; [|reflexivity]. destruct (f e e' g' user); reflexivity. }
        destruct on_v as [f|]; [destruct (f (tgt e) v' g1 user) as [user'|x]; cbn [rbind]; [|reflexivity]; etransitivity; [apply (Q user')|]|cbn [rbind]; etransitivity; [apply (Q user)|]];
          destruct on_e as [f'|]; cbn [rbind]; try reflexivity; destruct (f' e e' g' _); reflexivity.
  Qed.

  Fixpoint c_copy_edges {St} on_v on_e (X : list E) (st : ccopying E E' G St) : res (ccopying E E' G St) :=
    match X with [] => Ok st | e :: X' => rbind (c_copy_edge src tgt add_vertex add_edge on_v on_e e st) (c_copy_edges on_v on_e X') end.
  Lemma c_copy_calls {St} on_v on_e (t : list (event E)) : (forall x s, In x t -> x <> Start s) -> Forall (fun e => erelevant e && vrelevant (tgt e) = true) (examined t) ->
    forall st : ccopying E E' G St, calls (c_copy_visitor src tgt vrelevant erelevant add_vertex add_edge on_v on_e) t st = c_copy_edges on_v on_e (examined t) st.
  Proof.
    clear IV IE. induction t as [|x t IH]; intros N F st; [reflexivity|]. assert (N' : forall y s, In y t -> y <> Start s) by (intros y z J; apply N; right; exact J).
    cbn [calls]. destruct x; cbn [c_copy_visitor rbind]; try (apply IH; [exact N'|exact F]).
    - destruct (N (Start v) v (or_introl eq_refl) eq_refl).
    - change (examined (Examine e :: t)) with (e :: examined t) in *. inversion F as [|? ? F1 F2]; subst. rewrite F1. cbn [c_copy_edges].
      destruct (c_copy_edge src tgt add_vertex add_edge on_v on_e e st); cbn [rbind]; [apply IH; assumption|reflexivity].
  Qed.
  Lemma k_copy_edges X : forall k, kinv k -> k_calls k <> [] -> Forall good X -> sourced src tgt (fun x => In x (dkeys (k_pv k))) X -> NoDup X -> (forall e, In e X -> ~ In e (dkeys (k_pe k))) ->
    exists k' d, kinv k' /\ k_calls k' = k_calls k ++ d /\
      forall St on_v on_e (user : St), c_copy_edges on_v on_e X (with_user k user) = rbind (perform on_v on_e d user) (fun user => Ok (with_user k' user)).
  Proof.
    induction X as [|e X IH]; intros k K NE GX S N D.
    - exists k, []. split; [exact K|]. split; [symmetry; apply app_nil_r|]. reflexivity.
    - destruct S as [S1 S2]. inversion N as [|? ? N1 N2]; subst. inversion GX as [|? ? G1 G2]; subst.
      destruct (k_copy_edge e k K NE G1 S1) as (k1 & d1 & K1 & C1 & V1 & E1 & R1); [apply D; left; reflexivity|].
      destruct (IH k1 K1) as (k' & d & K' & C' & R').
      + rewrite C1. intros Z. apply app_eq_nil in Z. exact (NE (proj1 Z)).
      + exact G2.
      + revert S2. apply sourced_ext. intros x Y. apply V1, Y.
      + exact N2.
      + intros x J H. rewrite E1 in H. apply in_app_or in H. destruct H as [H|[H|[]]]; [apply (D x (or_intror J) H)|subst x; exact (N1 J)].
      + exists k', (d1 ++ d). split; [exact K'|]. split; [rewrite C', C1, app_assoc; reflexivity|]. intros St on_v on_e user. cbn [c_copy_edges]. rewrite R1, perform_app.
        destruct (perform on_v on_e d1 user); cbn [rbind]; [apply R'|reflexivity].
  Qed.

  (** the whole copy *)
  Variable out_edges : nat -> list E.
  Variable g0 : G.
  Hypothesis I0 : I g0 [] [].
  Notation rel := (fun e => erelevant e && vrelevant (tgt e)).
  Lemma copy_whole t c' : vrun out_edges tgt rel s [] (asks out_edges s ++ asks out_edges s) t c' -> (forall u e, In e (out_edges u) -> src e = u) ->
    NoDup (examined t) -> Forall good (examined t) -> Forall (fun e => rel e = true) (examined t) ->
    exists k, kinv k /\ (exists s' h l, k_calls k = DupVertex s s' h :: l) /\
      forall St on_v on_e, exists bound, forall (user : St) fuel, bound <= fuel -> c_copy src tgt vrelevant erelevant add_vertex add_edge on_v on_e out_edges fuel s g0 user =
        Some (rbind (perform on_v on_e (k_calls k) user) (fun user => Ok (with_user k user))).
  Proof.
    intros R SRC ND GD RL. set (k0 := Cst g0 [] [] [] []).
    assert (K0 : kinv k0). { constructor; cbn; try reflexivity; try tauto. intros l1 c l2 H. destruct l1; discriminate. }
    destruct (k_dup s k0 K0 (fun x => x)) as (g1 & s' & J1 & D1). cbn [k0 k_pv k_pe k_done app] in J1, D1.
    set (k1 := Cst g1 [(s, s')] [] (sadd s []) [DupVertex s s' g1]).
    assert (K1 : kinv k1).
    { constructor; cbn [k1 k_g k_pv k_pe k_done k_calls]; try reflexivity.
      - exact J1.
      - intros l1 c l2 H. destruct l1 as [|x l1]; [|destruct l1; discriminate]. injection H as <- <-. split; [exact J1|]. split; [intros []|left; reflexivity]. }
    destruct (k_copy_edges (examined t) k1 K1) as (k' & d & K' & C' & R').
    - discriminate.
    - exact GD.
    - apply (proj1 (run_sourced out_edges src tgt vrelevant erelevant SRC) _ _ _ _ _ R). left. reflexivity.
    - exact ND.
    - intros e _ [].
    - exists k'. split; [exact K'|]. split; [exists s', g1, d; exact C'|]. intros St on_v on_e.
      destruct (dfs_run out_edges tgt rel (c_copy_visitor src tgt vrelevant erelevant add_vertex add_edge on_v on_e) s [] t c' R) as (bound & HB).
      exists bound. intros user fuel L. unfold c_copy. rewrite HB by exact L. unfold after. cbn [calls c_copy_visitor]. change (CCopying g0 [] [] [] user) with (with_user k0 user). rewrite D1, C'. cbn [k1 k_calls app]. cbn [perform].
      destruct on_v as [f|]; [destruct (f s s' g1 user) as [user'|x]; cbn [rbind]; [|reflexivity]|cbn [rbind]].
      + rewrite c_copy_calls; [|apply (proj1 (run_no_start out_edges tgt vrelevant erelevant) _ _ _ _ _ R)|exact RL].
        change (with_user _ user') with (with_user k1 user'). rewrite R'. destruct (perform (Some f) on_e d user'); reflexivity.
      + rewrite c_copy_calls; [|apply (proj1 (run_no_start out_edges tgt vrelevant erelevant) _ _ _ _ _ R)|exact RL].
        change (with_user _ user) with (with_user k1 user). rewrite R'. destruct (perform None on_e d user); reflexivity.
  Qed.
End C.
