(* The invariant of a connection *)
From Coq Require Import String List Bool Arith NArith Lia.
From Verif Require Import WsModel WsSpec WsBase.
Import ListNotations.
Open Scope list_scope.

Definition streaming (p : phase) : bool :=
  match p with Looping | Last | Ending => true | _ => false end.

Record inv (ids : list string) (c : conn) : Prop := mkinv {
  i_recv : c_received c = true <-> In (EOut None MAck) (c_log c);
  i_acked : c_down c = false -> c_acked c = c_received c;
  i_some : c_next c <> 0 -> c_received c = true /\ c_acked c = true;
  i_inst : NoDup (map t_inst (c_tasks c));
  i_lt : forall t, In t (c_tasks c) -> t_inst t < c_next c;
  i_len : length ids = c_next c;
  i_incl : incl ids (asked (c_log c));
  i_nodup : NoDup (asked (c_log c)) -> NoDup ids;
  i_ids : forall t, In t (c_tasks c) -> nth_error ids (t_inst t) = Some (t_id t);
  i_task : forall t, In t (c_tasks c) -> task_inv (c_log c) t;
  i_gone : forall n i, nth_error ids n = Some i -> ~ In n (map t_inst (c_tasks c)) ->
             finished n i (c_log c);
  i_new : forall n, c_next c <= n -> quiet n (c_log c);
  i_subs : forall i n, held i (c_subs c) = Some n ->
             exists t, In t (c_tasks c) /\ t_inst t = n /\ t_id t = i /\ streaming (t_phase t) = true;
  i_down : c_down c = true -> forall t, In t (c_tasks c) -> streaming (t_phase t) = true
}.

Lemma inv_start : inv [] start.
Proof.
  apply mkinv; cbn.
  - split; [discriminate|intros []].
  - reflexivity.
  - intro H. now destruct H.
  - constructor.
  - intros t [].
  - reflexivity.
  - intros x [].
  - intros _. constructor.
  - intros t [].
  - intros t [].
  - intros n i E. destruct n; discriminate.
  - intros n _. apply quiet_nil.
  - discriminate.
  - intros _ t [].
Qed.

(* A step of the connection itself *)
Lemma inv_quiet : forall ids c c' x,
  inv ids c ->
  c_log c' = c_log c ++ x ->
  (forall n, quiet n x) -> asked x = [] ->
  (c_received c' = true <-> c_received c = true \/ In (EOut None MAck) x) ->
  (c_down c' = false -> c_acked c' = c_received c' /\ c_down c = false) ->
  (c_acked c = true -> c_acked c' = true) ->
  c_tasks c' = c_tasks c -> c_next c' = c_next c ->
  (forall i n, held i (c_subs c') = Some n -> held i (c_subs c) = Some n) ->
  (c_down c' = true -> forall t, In t (c_tasks c) -> streaming (t_phase t) = true) ->
  inv ids c'.
Proof.
  intros ids c c' x I L Q A R D K T N S W. split.
  - rewrite L, R, in_app_iff. rewrite <- (i_recv _ _ I). reflexivity.
  - intro H. now apply D.
  - rewrite N. intro H. destruct (i_some _ _ I H) as [H1 H2]. split; [|now apply K].
    apply R. now left.
  - rewrite T. exact (i_inst _ _ I).
  - rewrite T, N. exact (i_lt _ _ I).
  - rewrite N. exact (i_len _ _ I).
  - rewrite L, asked_app, A, app_nil_r. exact (i_incl _ _ I).
  - rewrite L, asked_app, A, app_nil_r. exact (i_nodup _ _ I).
  - rewrite T. exact (i_ids _ _ I).
  - rewrite T, L. intros t J. apply task_quiet; [apply Q|]. exact (i_task _ _ I t J).
  - rewrite T, L. intros n i E J. apply finished_quiet; [apply Q|]. exact (i_gone _ _ I n i E J).
  - rewrite N, L. intros n J. apply quiet_app; [exact (i_new _ _ I n J)|apply Q].
  - rewrite T. intros i n H. exact (i_subs _ _ I i n (S i n H)).
  - rewrite T. exact W.
Qed.

(* A step of one instance that goes on *)
Lemma inv_set : forall ids c c' x n i q p,
  inv ids c -> In (mktask n i q) (c_tasks c) ->
  c_log c' = c_log c ++ x ->
  (forall k, k <> n -> quiet k x) -> asked x = [] -> ~ In (EOut None MAck) x ->
  c_received c' = c_received c -> c_down c' = c_down c -> c_acked c' = c_acked c ->
  c_tasks c' = set_phase n p (c_tasks c) -> c_next c' = c_next c ->
  (streaming q = true -> streaming p = true) ->
  (forall j k, held j (c_subs c') = Some k ->
     held j (c_subs c) = Some k \/ (k = n /\ j = i /\ streaming p = true)) ->
  (c_down c = true -> streaming p = true) ->
  task_inv (c_log c') (mktask n i p) ->
  inv ids c'.
Proof.
  intros ids c c' x n i q p I J L Q A R R1 R2 R3 T N P S W V.
  assert (One : forall u, In u (c_tasks c) -> t_inst u = n -> u = mktask n i q).
  { intros u Ju Eu. exact (one_task _ u (mktask n i q) (i_inst _ _ I) Ju J Eu). }
  split.
  - rewrite L, R1, in_app_iff. rewrite (i_recv _ _ I). tauto.
  - rewrite R1, R2, R3. exact (i_acked _ _ I).
  - rewrite R1, R3, N. exact (i_some _ _ I).
  - rewrite T, set_insts. exact (i_inst _ _ I).
  - rewrite T, N. intros t K. apply set_in in K as [(u & Ku & Eu & ->)|[K _]].
    + cbn. rewrite <- Eu. exact (i_lt _ _ I u Ku).
    + exact (i_lt _ _ I t K).
  - rewrite N. exact (i_len _ _ I).
  - rewrite L, asked_app, A, app_nil_r. exact (i_incl _ _ I).
  - rewrite L, asked_app, A, app_nil_r. exact (i_nodup _ _ I).
  - rewrite T. intros t K. apply set_in in K as [(u & Ku & Eu & ->)|[K _]].
    + cbn. rewrite <- Eu. exact (i_ids _ _ I u Ku).
    + exact (i_ids _ _ I t K).
  - rewrite T. intros t K. apply set_in in K as [(u & Ku & Eu & ->)|[K D]].
    + rewrite (One u Ku Eu). exact V.
    + rewrite L. apply task_quiet; [now apply Q|]. exact (i_task _ _ I t K).
  - rewrite T, set_insts, L. intros k j E K. apply finished_quiet.
    + apply Q. intros ->. apply K. apply in_map_iff. now exists (mktask n i q).
    + exact (i_gone _ _ I k j E K).
  - rewrite N, L. intros k K. apply quiet_app; [exact (i_new _ _ I k K)|].
    apply Q. intros ->. assert (B := i_lt _ _ I _ J). cbn in B. lia.
  - rewrite T. intros j k H. destruct (S j k H) as [H1|(-> & -> & H1)].
    + destruct (i_subs _ _ I j k H1) as (t & Jt & E1 & E2 & E3).
      destruct (Nat.eq_dec k n) as [D|D].
      * exists (mktask n i p). rewrite D in E1. rewrite (One t Jt E1) in E2, E3. cbn in E2, E3 |- *.
        split; [|split; [now symmetry|split; [exact E2|now apply P]]].
        unfold set_phase. apply in_map_iff. exists (mktask n i q). cbn. now rewrite Nat.eqb_refl.
      * exists t. split; [|auto]. unfold set_phase. apply in_map_iff. exists t. split; [|exact Jt].
        destruct (Nat.eqb_spec (t_inst t) n); [congruence|reflexivity].
    + exists (mktask n i p). cbn. split; [|auto].
      unfold set_phase. apply in_map_iff. exists (mktask n i q). cbn. now rewrite Nat.eqb_refl.
  - rewrite R2, T. intros D t K. apply set_in in K as [(u & _ & _ & ->)|[K _]].
    + cbn. now apply W.
    + exact (i_down _ _ I D t K).
Qed.

(* A step of one instance that ends it *)
Lemma inv_end : forall ids c c' x n i q,
  inv ids c -> In (mktask n i q) (c_tasks c) ->
  c_log c' = c_log c ++ x ->
  (forall k, k <> n -> quiet k x) -> asked x = [] -> ~ In (EOut None MAck) x ->
  c_received c' = c_received c -> c_down c' = c_down c -> c_acked c' = c_acked c ->
  c_tasks c' = end_task n (c_tasks c) -> c_next c' = c_next c ->
  (forall j k, held j (c_subs c') = Some k -> held j (c_subs c) = Some k /\ k <> n) ->
  finished n i (c_log c') ->
  inv ids c'.
Proof.
  intros ids c c' x n i q I J L Q A R R1 R2 R3 T N S V. split.
  - rewrite L, R1, in_app_iff. rewrite (i_recv _ _ I). tauto.
  - rewrite R1, R2, R3. exact (i_acked _ _ I).
  - rewrite R1, R3, N. exact (i_some _ _ I).
  - rewrite T. apply end_nodup. exact (i_inst _ _ I).
  - rewrite T, N. intros t K. apply end_in in K as [K _]. exact (i_lt _ _ I t K).
  - rewrite N. exact (i_len _ _ I).
  - rewrite L, asked_app, A, app_nil_r. exact (i_incl _ _ I).
  - rewrite L, asked_app, A, app_nil_r. exact (i_nodup _ _ I).
  - rewrite T. intros t K. apply end_in in K as [K _]. exact (i_ids _ _ I t K).
  - rewrite T, L. intros t K. apply end_in in K as [K D].
    apply task_quiet; [now apply Q|]. exact (i_task _ _ I t K).
  - rewrite T. intros k j E K. destruct (Nat.eq_dec k n) as [D|D].
    + subst k. assert (B := i_ids _ _ I _ J). cbn in B. rewrite B in E. injection E as <-. exact V.
    + rewrite L. apply finished_quiet; [now apply Q|]. apply (i_gone _ _ I k j E).
      intro M. apply K. apply in_map_iff in M as (t & Et & Jt). apply in_map_iff.
      exists t. split; [exact Et|]. apply end_in. split; [exact Jt|congruence].
  - rewrite N, L. intros k K. apply quiet_app; [exact (i_new _ _ I k K)|].
    apply Q. intros ->. assert (B := i_lt _ _ I _ J). cbn in B. lia.
  - rewrite T. intros j k H. destruct (S j k H) as [H1 D].
    destruct (i_subs _ _ I j k H1) as (t & Jt & E1 & E2 & E3). exists t.
    split; [|auto]. apply end_in. split; [exact Jt|congruence].
  - rewrite R2, T. intros D t K. apply end_in in K as [K _]. exact (i_down _ _ I D t K).
Qed.

(* A new instance *)
Lemma inv_add : forall ids c i,
  inv ids c -> c_down c = false -> c_acked c = true ->
  inv (ids ++ [i])
      (mkconn (c_received c) (c_acked c) (c_subs c) (c_tasks c ++ [mktask (c_next c) i Waiting])
              (S (c_next c)) (c_down c) (c_log c ++ [asks i])).
Proof.
  intros ids c i I D K.
  assert (R : c_received c = true) by now rewrite <- (i_acked _ _ I D).
  assert (Q : forall n, quiet n [asks i]) by (intro n; now apply quiet_in).
  assert (Lt : ~ In (c_next c) (map t_inst (c_tasks c))).
  { intro J. apply in_map_iff in J as (t & E & J). assert (B := i_lt _ _ I t J). lia. }
  split; cbn.
  - rewrite in_app_iff, (i_recv _ _ I). cbn. intuition discriminate.
  - exact (i_acked _ _ I).
  - auto.
  - rewrite map_app. cbn. apply snoc_nodup; [exact (i_inst _ _ I)|exact Lt].
  - intros t J. apply in_app_or in J as [J|[<-|[]]]; cbn; [|lia].
    assert (B := i_lt _ _ I t J). lia.
  - rewrite app_length, (i_len _ _ I). cbn. lia.
  - rewrite asked_app. cbn. apply incl_app; [|apply incl_appr, incl_refl].
    apply incl_appl. exact (i_incl _ _ I).
  - rewrite asked_app. cbn. intro N.
    assert (N' := NoDup_remove_1 _ _ _ N). assert (M := NoDup_remove_2 _ _ _ N).
    rewrite app_nil_r in N', M. apply snoc_nodup; [exact (i_nodup _ _ I N')|].
    intro J. apply M. exact (i_incl _ _ I _ J).
  - intros t J. apply in_app_or in J as [J|[<-|[]]]; cbn.
    + assert (B := i_lt _ _ I t J). rewrite <- (i_len _ _ I) in B.
      rewrite nth_error_app1 by exact B. exact (i_ids _ _ I t J).
    + rewrite nth_error_app2 by (rewrite (i_len _ _ I); lia).
      now rewrite (i_len _ _ I), Nat.sub_diag.
  - intros t J. apply in_app_or in J as [J|[<-|[]]].
    + apply task_quiet; [apply Q|exact (i_task _ _ I t J)].
    + assert (B := quiet_app _ _ _ (i_new _ _ I (c_next c) (le_n _)) (Q (c_next c))).
      exact B.
  - intros n j E J. rewrite map_app, in_app_iff in J. cbn in J.
    assert (n <> c_next c) by (intros ->; apply J; right; now left).
    assert (B : n < length (ids ++ [i])) by (apply nth_error_Some; now rewrite E).
    rewrite app_length in B. cbn in B. rewrite (i_len _ _ I) in B.
    rewrite nth_error_app1 in E by (rewrite (i_len _ _ I); lia).
    apply finished_quiet; [apply Q|]. apply (i_gone _ _ I n j E). tauto.
  - intros n J. apply quiet_app; [apply (i_new _ _ I); lia|apply Q].
  - intros j n H. destruct (i_subs _ _ I j n H) as (t & J & E). exists t.
    split; [apply in_or_app; now left|exact E].
  - rewrite D. discriminate.
Qed.
