(** What one selection leads to. *)
From Coq Require Import String List NArith Bool Arith Lia.
From Verif Require Import StrOrd Ast QplanModel BestModel OverrideModel SafeModel PathModel PathSpec PathCycle PathBase PathBest PathSound PathTotal PathMain OpwalkModel OpwalkSpec OpwalkBase.
Import ListNotations.
Local Open Scope list_scope.

Section Steps.
  Variable g : pgraph.
  Variable ctx : context.
  Variable objects_of : string -> option (list string).
  Variable ahash : option (list (string * gvalue)) -> N.
  Variable known : list tas -> tas -> bool.
  Variable defs : list (string * sdef).
  Variable subgraph_of : string -> option string.
  Notation resolvable := (resolvable defs subgraph_of).
  Notation direct := (direct g ctx objects_of ahash known defs subgraph_of).
  Notation indirect := (indirect g ctx objects_of ahash known defs subgraph_of).
  Notation candidates := (candidates g ctx objects_of ahash known defs subgraph_of).
  Notation explore_field := (explore_field g ctx objects_of ahash known defs subgraph_of).

  Lemma add_all_ok : forall l t t', add_all g t l = Ok t' ->
    exists D, map snd D = l /\ t' = track_all D t /\ forall id q, In (id, q) D -> graph_of g (tail_of q) id.
  Proof.
    intros l. induction l as [|p l IH]; intros t t' K; cbn in K; [injection K as <-; exists []; repeat split; intros ? ? []|].
    apply bind_ok in K. destruct K as [n [N K]]. unfold node_at in N. destruct (nth_error (nodes g) (tail_of p)) as [n'|] eqn:NE; [|discriminate]. injection N as ->.
    destruct (n_graph n) as [id|] eqn:G; [|discriminate]. apply IH in K. destruct K as [D [M [-> F]]]. exists ((id, p) :: D). split; [cbn; now rewrite M|].
    split; [reflexivity|]. intros id' q [E|I]; [injection E as <- <-; now exists n|now apply F].
  Qed.
  (** What the searches from one path give for a field *)
  Definition offered (f : fsel) (local : bool) (ids : option (list string)) (p q : opath) : Prop :=
    exists ds, direct p (TField f None) = Ok ds /\
      (In q ds \/ local = false /\ (ds = [] \/ fl_sub f <> []) /\ exists is, indirect p (TField f ids) = Ok is /\ In q is).
  Lemma explore_ok : forall f local ids p t t', explore_field f local ids t p = Ok t' ->
    exists D, t' = track_all D t /\ (forall id q, In (id, q) D -> graph_of g (tail_of q) id) /\
      forall q, In q (map snd D) <-> offered f local ids p q.
  Proof.
    intros f local ids p t t' K. unfold explore_field in K. apply bind_ok in K. destruct K as [ds [DS K]].
    apply bind_ok in K. destruct K as [t1 [A K]]. apply add_all_ok in A. destruct A as [D [M [-> F]]].
    cbn zeta in K. destruct (negb local && negb match ds with [] => false | _ :: _ => match fl_sub f with [] => true | _ => false end end) eqn:B.
    - apply andb_true_iff in B. destruct B as [B1 B2]. apply negb_true_iff in B1, B2.
      apply bind_ok in K. destruct K as [is [IS K]]. apply add_all_ok in K. destruct K as [D' [M' [-> F']]].
      exists (D ++ D'). split; [now rewrite track_all_app|]. split; [intros id q I; apply in_app_iff in I; destruct I; auto|].
      intros q. rewrite map_app, in_app_iff, M, M'. unfold offered. split.
      + intros [I|I]; exists ds; (split; [exact DS|]); [now left|]. right. split; [exact B1|]. split; [|exists is; auto].
        destruct ds; [now left|]. right. now destruct (fl_sub f).
      + intros [ds' [E [I|[_ [_ [is' [E' I]]]]]]]; [left; congruence|right; congruence].
    - injection K as <-. exists D. split; [reflexivity|]. split; [exact F|]. intros q. rewrite M. unfold offered. split; [intros I; exists ds; auto|].
      intros [ds' [E [I|[L [S [is [_ I]]]]]]]; [congruence|]. exfalso. rewrite DS in E. injection E as <-. rewrite L in B. cbn in B. apply negb_false_iff in B.
      destruct ds; [discriminate|]. destruct (fl_sub f); [|discriminate]. now destruct S.
  Qed.
  Lemma fold_explore : forall f local ids paths t t', fold_res (explore_field f local ids) paths t = Ok t' ->
    exists D, t' = track_all D t /\ (forall id q, In (id, q) D -> graph_of g (tail_of q) id) /\
      forall q, In q (map snd D) <-> exists p, In p paths /\ offered f local ids p q.
  Proof.
    intros f local ids paths. induction paths as [|p paths IH]; intros t t' K; cbn [fold_res] in K.
    - injection K as <-. exists []. split; [reflexivity|]. split; [intros ? ? []|]. intros q. split; [intros []|intros [p [[] _]]].
    - apply bind_ok in K. destruct K as [t1 [E K]]. apply explore_ok in E. destruct E as [D [-> [F O]]]. apply IH in K. destruct K as [D' [-> [F' O']]].
      exists (D ++ D'). split; [now rewrite track_all_app|]. split; [intros id q I; apply in_app_iff in I; destruct I; auto|].
      intros q. rewrite map_app, in_app_iff, O, O'. split.
      + intros [I|[p' [I J]]]; [exists p; split; [now left|exact I]|exists p'; split; [now right|exact J]].
      + intros [p' [[<-|I] J]]; [now left|right; now exists p'].
  Qed.
  (** The paths for a field: of what the searches offer, the cheapest in each subgraph, narrowed *)
  Definition best_offer (f : fsel) (local : bool) (ids : option (list string)) (paths : list opath) (q : opath) : Prop :=
    (exists p, In p paths /\ offered f local ids p q) /\
    exists id, graph_of g (tail_of q) id /\
      forall p' q', In p' paths -> offered f local ids p' q' -> graph_of g (tail_of q') id -> (o_cost q <= o_cost q')%N.
  Lemma candidates_ok : forall f local paths l, candidates f local paths = Ok l ->
    exists ids best, l = narrow best /\ (local = true -> ids = None) /\
      (forall p, In p paths -> local = false -> target_ids g resolvable (fl_name f) paths = Ok ids) /\
      forall q, In q best <-> best_offer f local ids paths q.
  Proof.
    intros f local paths l K. unfold candidates in K. apply bind_ok in K. destruct K as [ids [I K]].
    apply bind_ok in K. destruct K as [t [T K]]. injection K as <-. exists ids, (best_of t). split; [reflexivity|].
    split; [intros ->; destruct paths; congruence|]. split; [intros p IP ->; destruct paths; [destruct IP|exact I]|].
    apply fold_explore in T. destruct T as [D [-> [F O]]]. intros q.
    rewrite (best_of_ok D) by exact (track_all_tracks D [] [] tracks_nil). unfold best_offer. split.
    - intros [id [J M]]. split; [apply O; change q with (snd (id, q)); now apply in_map|]. exists id. split; [now apply F|].
      intros p' q' IP OF G. assert (J' : In q' (map snd D)) by (apply O; now exists p'). apply in_map_iff in J'. destruct J' as [[id' q0] [E J']]. cbn in E. subst q0.
      rewrite (graph_inj g _ _ _ (F _ _ J') G) in J'. now apply M.
    - intros [OF [id [G M]]]. exists id. apply O in OF. apply in_map_iff in OF. destruct OF as [[id' q0] [E J]]. cbn in E. subst q0.
      rewrite (graph_inj g _ _ _ (F _ _ J) G) in J. split; [exact J|]. intros q' J'.
      assert (OF' : exists p, In p paths /\ offered f local ids p q') by (apply O; change q' with (snd (id, q')); now apply in_map).
      destruct OF' as [p' [IP OF']]. eapply M; [exact IP|exact OF'|now apply F].
  Qed.

  Hypothesis CU : consistent_unions g.
  Lemma candidates_advanced : forall name alias args inc skip om sub local paths l, Forall (path_of g) paths ->
    candidates (mkfsel name alias args inc skip sub) local paths = Ok l ->
    forall q, In q l -> exists p, In p paths /\ advanced g ctx objects_of p (SField name alias args inc skip om sub) q.
  Proof.
    intros name alias args inc skip om sub local paths l P K q I. set (f := mkfsel name alias args inc skip sub) in *.
    apply candidates_ok in K. destruct K as [ids [best [-> [_ [_ B]]]]].
    assert (ST : Forall (settled g) best).
    { apply Forall_forall. intros x J. apply B in J. destruct J as [[p [IP [ds [D O]]]] _]. destruct O as [O|[_ [_ [is [IS O]]]]].
      - apply direct_settled in D. rewrite Forall_forall in D. now apply D.
      - apply indirect_settled in IS. rewrite Forall_forall in IS. now apply IS. }
    destruct (narrow_settled g best CU ST q I) as [q0 [J T]]. apply B in J. destruct J as [[p [IP [ds [D O]]]] _].
    exists p. split; [exact IP|]. rewrite Forall_forall in P. assert (PP := P p IP).
    apply (advanced_thinned g ctx objects_of p name alias args inc skip om sub q0 q); [|exact T]. destruct O as [O|[_ [_ [is [IS O]]]]].
    - apply (direct_ok g ctx objects_of) in D; [|exact PP]. destruct D as [D _]. destruct (D _ O) as [i FD]. eapply direct_field; [exact PP|exact FD].
    - eapply (indirect_ok g ctx objects_of) in IS; [|exact PP|exact O]. destruct IS as [src [_ FD]]. eapply indirect_field; [exact PP|exact FD].
  Qed.
End Steps.
