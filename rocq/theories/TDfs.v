(** Theorem C86: the order and the nesting of the calls of depth_first_search. *)
From Verif Require Import Base BaseProofs Graph Automaton Search SearchSpec SearchProofs SearchProofs2 TSearch DfsSpec DfsProofs.

Section T.
  Context {E : Type}.
  Variables (out_edges : nat -> list E) (target source : E -> nat) (if_push : E -> bool).
  Hypothesis FIN : finite_graph out_edges target.
  Hypothesis SRC : forall u e, In e (out_edges u) -> source e = u.
  Notation next := (next out_edges target if_push).

  Lemma sruns_one s c t c' : vrun out_edges target if_push s c (asks out_edges s ++ asks out_edges s) t c' -> color_of c s = WHITE ->
    sruns out_edges target if_push [s] c (Start s :: t) c'.
  Proof. intros R W. rewrite <- (app_nil_r (Start s :: t)). econstructor; [exact W|exact R|constructor]. Qed.
  Lemma sruns_events l c t c' : (forall v, color_of c v = WHITE) -> sruns out_edges target if_push l c t c' ->
    forall t1 x t2, t = t1 ++ x :: t2 -> legal out_edges source target if_push t1 x t2.
  Proof.
    intros W R t1 x t2 Q. destruct (sruns_legal out_edges target source if_push SRC l c t c' R [] []) as [L _].
    - intros v. rewrite W. intros [].
    - intros e [].
    - reflexivity.
    - specialize (L t1 x t2 Q). rewrite app_nil_r in L. exact L.
  Qed.
  Lemma sruns_nested l c t c' : (forall v, color_of c v = WHITE) -> sruns out_edges target if_push l c t c' ->
    forall u, In u (discovered t) -> exists t1 t2 t3, t = t1 ++ Discover u :: t2 ++ Finish u :: t3 /\
      Permutation (finished t2) (discovered t2) /\ (forall v, In v (u :: discovered t2) <-> steps (down source target t) u v) /\
      (forall v, In v (u :: discovered t2) <-> steps (fresh out_edges target if_push t1) u v).
  Proof.
    intros W R u I. apply (sruns_intervals out_edges target source if_push SRC l c t c' R []); [|exact I].
    intros v. rewrite W. split; [intros _ []|reflexivity].
  Qed.

  (** C86: every call is the one expected after the calls before it, and the calls between the discovery and the end of
      a vertex are those of its descendants in the forest: the vertices reached through vertices that were not discovered. *)
  Theorem C86_depth_first_search s c : (forall v, color_of c v = WHITE) -> exists t c', dfs_calls out_edges target if_push s c t c' /\
    (forall v, In v (discovered t) <-> steps next s v) /\
    (forall t1 x t2, t = t1 ++ x :: t2 -> legal out_edges source target if_push t1 x t2) /\
    (forall u, In u (discovered t) -> exists t1 t2 t3, t = t1 ++ Discover u :: t2 ++ Finish u :: t3 /\
      Permutation (finished t2) (discovered t2) /\
      (forall v, In v (u :: discovered t2) <-> steps (down source target t) u v) /\
      (forall v, In v (u :: discovered t2) <-> steps (fresh out_edges target if_push t1) u v)).
  Proof.
    intros W. destruct (dfs_white out_edges target if_push FIN s c (W s)) as (t & c' & R). exists (Start s :: t), c'. split; [apply dfs_calls_run, R|].
    pose proof (sruns_one _ _ _ _ R (W s)) as S.
    split; [exact (vrun_discovered out_edges target if_push s c _ t c' R (fun v _ => W v))|]. split; [apply (sruns_events _ _ _ _ W S)|apply (sruns_nested _ _ _ _ W S)].
  Qed.

  Theorem C86_depth_first_search_graph vertices sources c : (forall v, color_of c v = WHITE) ->
    let from := match sources with [] => vertices | _ => sources end in
    exists t c', dfs_graph_calls out_edges target if_push vertices sources c t c' /\
    (forall v, In v from -> In v (discovered t)) /\
    (forall t1 x t2, t = t1 ++ x :: t2 -> legal out_edges source target if_push t1 x t2) /\
    (forall u, In u (discovered t) -> exists t1 t2 t3, t = t1 ++ Discover u :: t2 ++ Finish u :: t3 /\
      Permutation (finished t2) (discovered t2) /\
      (forall v, In v (u :: discovered t2) <-> steps (down source target t) u v) /\
      (forall v, In v (u :: discovered t2) <-> steps (fresh out_edges target if_push t1) u v)).
  Proof.
    intros W from. destruct (closed_exists out_edges target if_push FIN from) as (V & CV & I). destruct (sruns_exists out_edges target if_push V CV from I c) as (t & c' & R).
    exists t, c'. split.
    - intros St vis. destruct (dfs_sources_run out_edges target if_push vis from c t c' R) as (k & H). exists k. intros st fuel L. unfold depth_first_search_graph.
      fold from. rewrite (H st fuel L). unfold after. destruct (calls vis t st); reflexivity.
    - split; [|split; [apply (sruns_events _ _ _ _ W R)|apply (sruns_nested _ _ _ _ W R)]].
      intros v Iv. pose proof (sruns_facts _ _ _ _ _ _ _ R) as F. destruct (in_dec' v (discovered t)) as [D|D]; [exact D|]. exfalso.
      pose proof (f_other _ _ _ F v D) as X. rewrite W in X. clear -R Iv X D.
      induction R as [c|u l c t c1 t' c2 W V R IH|u l c t c' W R IH]; [destruct Iv| |].
      + destruct Iv as [->|Iv].
        * apply D. change ((Start v :: t) ++ t') with ([Start v] ++ t ++ t'). rewrite !disc_app. apply in_or_app. right. apply in_or_app. left.
          rewrite (proj1 (proj2 (proj1 (run_edges out_edges target if_push) _ _ _ _ _ V))). left. reflexivity.
        * apply IH; [exact Iv| |exact X]. intros Z. apply D. rewrite disc_app. apply in_or_app. right. exact Z.
      + destruct Iv as [->|Iv]; [|apply IH; assumption]. pose proof (sruns_facts _ _ _ _ _ _ _ R) as F. rewrite (f_other _ _ _ F v D) in X. contradiction.
  Qed.
End T.

(** A cycle 0 -> 1 -> 2 -> 0 with a chord 0 -> 2, and 3 -> 1, searched from all the vertices. *)
Definition ex_out (u : nat) : list (nat * nat) := match u with 0 => [(0, 1); (0, 2)] | 1 => [(1, 2)] | 2 => [(2, 0)] | 3 => [(3, 1)] | _ => [] end.
Definition ex_trace : list (event (nat * nat)) :=
  match depth_first_search_graph ex_out snd (fun _ => true) (fun x st => Ok (st ++ [x])) 100 [0; 1; 2; 3] [] [] [] with Some (Ok (_, st)) => st | _ => [] end.
Example ex_C86 : filter (fun x => match x with Ask _ => false | _ => true end) ex_trace =
  [Start 0; Discover 0; Examine (0, 1); Tree (0, 1); Discover 1; Examine (1, 2); Tree (1, 2); Discover 2; Examine (2, 0); Back (2, 0); Finish 2; Finish 1;
   Examine (0, 2); ForwardOrCross (0, 2); Finish 0; Start 3; Discover 3; Examine (3, 1); ForwardOrCross (3, 1); Finish 3].
Proof. vm_compute. reflexivity. Qed.
Example ex_C86_hyp : finite_graph ex_out snd /\ (forall u e, In e (ex_out u) -> fst e = u) /\ forall v, color_of [] v = WHITE.
Proof.
  split; [exists [0; 1; 2; 3]|split; [|reflexivity]].
  - intros u e. destruct u as [|[|[|[|u]]]]; cbn; intuition (subst; cbn; auto).
  - intros u e. destruct u as [|[|[|[|u]]]]; cbn; intuition (subst; cbn; auto).
Qed.
Print Assumptions C86_depth_first_search.
Print Assumptions C86_depth_first_search_graph.
