(** What follows from the invariant of a pooled connection. *)
From Coq Require Import String List NArith Bool Arith Lia.
From Verif Require Import OwnerModel OwnerSpec OwnerProofs.
Import ListNotations.
Local Open Scope string_scope.
Local Open Scope list_scope.

Section Main.
  Variable capacity : nat.
  Variable idle : N.
  Notation inv := (inv capacity idle).
  Notation step := (step capacity idle).
  Notation steps := (steps capacity idle).
  Notation run tr o := (OwnerModel.steps capacity idle (start idle) tr = Some o).

  Ltac cases H := repeat match type of H with context [match ?x with _ => _ end] => destruct x eqn:?; try discriminate H end; try discriminate H.
  Ltac fields := cbn [stage waiting holding queue current running completions active clock deadline answers gone callers] in *.

  Lemma running_step o a o' : placed o -> NoDup (running o) -> (forall w, In w (running o) -> In (w, Started) (answers o)) -> step o a = Some o' ->
    NoDup (running o') /\ (forall w, In w (running o') -> In (w, Started) (answers o')).
  Proof.
    intros P D R H. destruct o as [st wa ho qu cu ru co ac cl de an go ca]. fields.
    destruct a; cbn [OwnerModel.step] in H; cases H; inversion H; subst; clear H; fields;
      try (split; [exact D | intros w0 W; try apply tell_keep; try (right; apply R; exact W); apply R; exact W]).
    - split.
      + match goal with |- NoDup (?x :: _) => rename x into w end. constructor; [|exact D]. intros W. apply R in W. apply (in_map fst) in W. cbn in W. apply count_in in W.
        destruct P as (P1 & _). pose proof (P1 w) as P. unfold place, asked, cur in P. fields. rewrite count_c in P. destruct (Nat.eq_dec w w); [|congruence]. lia.
      + intros w0 [<-|W]; [left; reflexivity | right; apply R; exact W].
    - split; [apply del_nodup; exact D | intros w0 W; apply del_in in W as (W & _); apply R; exact W].
    - split; [exact D | intros w0 W; unfold tell_all; apply in_or_app; right; apply R; exact W].
    - split; [exact D | intros w0 W; unfold tell_all; apply in_or_app; right; apply R; exact W].
  Qed.

  Lemma active_step o a o' : NoDup (running o) -> active o = length (running o) + completions o -> step o a = Some o' -> active o' = length (running o') + completions o'.
  Proof.
    intros D A H. destruct o as [st wa ho qu cu ru co ac cl de an go ca]. fields.
    destruct a; cbn [OwnerModel.step] in H; cases H; inversion H; subst o'; clear H; fields; cbn [length] in *; try lia.
    rewrite (del_length w ru) in A by (auto; apply mem_in; assumption). lia.
  Qed.

  Lemma room_step o a o' : length (holding o) + length (queue o) <= capacity -> placed o -> step o a = Some o' -> length (holding o') + length (queue o') <= capacity.
  Proof.
    intros C (P1 & _) H. destruct o as [st wa ho qu cu ru co ac cl de an go ca]. fields.
    destruct a; cbn [OwnerModel.step] in H; cases H; inversion H; subst; clear H; fields; rewrite ?app_length; cbn [length] in *; try lia.
    - match goal with K : Nat.ltb _ _ = true |- _ => apply Nat.ltb_lt in K end. lia.
    - match goal with K : mem _ _ = true |- _ => apply mem_in in K; rename K into M end.
      assert (N : NoDup ho).
      { apply nodup_count. intros x. specialize (P1 x). unfold place in P1. fields. lia. }
      rewrite (del_length w ho N M) in C. lia.
    - pose proof (del_le w ho). lia.
    - pose proof (del_le w ho). lia.
  Qed.

  Lemma end_step o a o' : (stage o = Ended -> holding o = [] /\ queue o = []) -> step o a = Some o' -> stage o' = Ended -> holding o' = [] /\ queue o' = [].
  Proof.
    intros E H. destruct o as [st wa ho qu cu ru co ac cl de an go ca]. fields.
    destruct a; cbn [OwnerModel.step] in H; cases H; inversion H; subst; clear H; fields; intros G; try discriminate G;
      try (specialize (E G) as (-> & ->)); try (split; reflexivity);
      try (match goal with K : mem _ [] = true |- _ => discriminate K end).
  Qed.

  Lemma clock_step tr o a o' : clock o = time tr -> step o a = Some o' -> clock o' = time (tr ++ [a]).
  Proof.
    intros C H. rewrite time_app. destruct o as [st wa ho qu cu ru co ac cl de an go ca]. fields.
    destruct a; cbn [OwnerModel.step] in H; cases H; inversion H; subst; clear H; fields; cbn [passes]; lia.
  Qed.

  Lemma dead_step tr o a o' : clock o = time tr -> active o = length (running o) + completions o ->
    (active o = 0 -> forall t, ended_at tr t -> (t + idle <= deadline o)%N) -> step o a = Some o' ->
    active o' = 0 -> forall t, ended_at (tr ++ [a]) t -> (t + idle <= deadline o')%N.
  Proof.
    intros C A E H Z t T. assert (L : (t <= time tr)%N).
    { apply ended_snoc in T as [T|(_ & ->)]; [apply ended_le; exact T | lia]. }
    destruct o as [st wa ho qu cu ru co ac cl de an go ca]. fields.
    destruct a; cbn [OwnerModel.step] in H; cases H; inversion H; subst o'; clear H; fields;
      try discriminate Z; try (apply (ended_quiet tr _ t) in T; [|intros; discriminate]; specialize (E Z t T); lia); try lia.
    - match goal with K : mem _ _ = true |- _ => apply mem_in in K; rename K into M end. destruct ru; [destruct M | cbn in A; lia].
    - match goal with K : (_ =? _)%nat = false |- _ => apply Nat.eqb_neq in K end. lia.
  Qed.

  Lemma order_step tr o a o' : subsequence (started o ++ cur o ++ queue o) (commits tr) -> step o a = Some o' ->
    subsequence (started o' ++ cur o' ++ queue o') (commits (tr ++ [a])).
  Proof.
    intros O H. rewrite commits_app. change (started o) with (begun (answers o)) in O. change (started o') with (begun (answers o')).
    destruct o as [st wa ho qu cu ru co ac cl de an go ca]. fields.
    assert (B : forall w x, x <> Started -> begun ((w, x) :: an) = begun an) by (intros w x X; unfold begun; destruct x; [congruence| |]; reflexivity).
    destruct a; cbn [OwnerModel.step] in H; cases H; inversion H; subst; clear H; unfold cur in *; fields; rewrite ?app_nil_r; rewrite ?B by discriminate;
      rewrite ?begun_tell, ?begun_tell_all by discriminate; fields; try exact O; cbn [app] in *; rewrite ?app_nil_r in *; try exact O;
      try (apply (sub_drop (begun an) [_] _) in O; exact O).
    all: try (rewrite ?app_assoc; apply sub_app; [|apply sub_refl]; rewrite <- ?app_assoc; exact O).
    all: try (unfold begun in *; cbn [flat_map snd fst rev app]; rewrite <- app_assoc; cbn [app]; exact O).
    all: try (apply (sub_trans _ _ O); rewrite <- (app_nil_r (begun an)) at 1; apply sub_app; [apply sub_refl | apply sub_nil_l]).
    apply (sub_trans _ _ O). apply sub_app; [apply sub_refl|]. apply sub_app; [apply sub_refl|]. apply sub_skip, sub_refl.
  Qed.

  Lemma inv_placed tr o : inv tr o -> placed o.
  Proof. intros I. destruct I. unfold placed. auto 9. Qed.
  Lemma inv_step tr o a o' : inv tr o -> step o a = Some o' -> inv (tr ++ [a]) o'.
  Proof.
    intros I H. pose proof (inv_placed _ _ I) as P. pose proof (placed_step _ _ _ _ _ P H) as (Q1 & Q2 & Q3 & Q4 & Q5). destruct I.
    destruct (running_step _ _ _ P i_run1 i_running H) as (R1 & R2).
    constructor; auto.
    - exact (active_step _ _ _ i_run1 i_active H).
    - exact (room_step _ _ _ i_cap P H).
    - exact (end_step _ _ _ i_end H).
    - exact (clock_step _ _ _ _ i_clock H).
    - exact (dead_step _ _ _ _ i_clock i_active i_dead H).
    - exact (order_step _ _ _ _ i_order H).
  Qed.
  Lemma inv_run tr o : run tr o -> inv tr o.
  Proof.
    revert o. induction tr as [|a tr IH] using rev_ind; intros o H.
    - inversion H. apply inv_start.
    - rewrite steps_app in H. destruct (OwnerModel.steps capacity idle (start idle) tr) as [o1|] eqn:E; [|discriminate]. cbn in H.
      destruct (step o1 a) as [o2|] eqn:F; [|discriminate]. inversion H; subst. exact (inv_step _ _ _ _ (IH _ eq_refl) F).
  Qed.

  Lemma at_most_once tr o w a b : run tr o -> answered o w a -> answered o w b -> a = b.
  Proof.
    intros H A B. apply inv_run in H. pose proof (i_once _ _ _ _ H w) as P.
    assert (D : count w (asked o) <= 1) by (unfold place in P; lia). clear P H. unfold answered, asked in *.
    induction (answers o) as [|[x c] l IH]; [destruct A|]. cbn [map fst] in D. rewrite count_c in D.
    assert (Z : forall c', In (w, c') l -> 1 <= count w (map fst l)) by (intros c' I; apply count_in; apply (in_map fst) in I; exact I).
    destruct (Nat.eq_dec x w) as [->|N].
    - destruct A as [A|A]; [|apply Z in A; lia]. destruct B as [B|B]; [|apply Z in B; lia]. congruence.
    - destruct A as [A|A]; [congruence|]. destruct B as [B|B]; [congruence|]. apply IH; auto.
  Qed.
  Lemma asked_iff o w : 1 <= count w (asked o) <-> exists a, answered o w a.
  Proof.
    rewrite <- count_in. unfold asked, answered. rewrite in_map_iff. split.
    - intros ([x a] & E & I). cbn in E. subst. exists a. exact I.
    - intros (a & I). exists (w, a). auto.
  Qed.
  Lemma cur_iff o w : 1 <= count w (cur o) <-> current o = Some w.
  Proof.
    unfold cur. destruct (current o) as [x|]; [rewrite count_c, count_nil|rewrite count_nil]; [|split; [lia|discriminate]].
    destruct (Nat.eq_dec x w); split; intros; try congruence; lia.
  Qed.
  (** Nobody is lost: whoever came is answered, or left, or is still on the way *)
  Lemma nobody_lost tr o w : run tr o -> (came o w <-> (exists a, answered o w a) \/ left o w \/ underway o w).
  Proof.
    intros H. apply inv_run in H. unfold came, left, underway. rewrite <- asked_iff, <- cur_iff, !count_in.
    pose proof (i_all _ _ _ _ H w). pose proof (i_bound _ _ _ _ H w). unfold place in *. split; intros; [|destruct (le_lt_dec (callers o) w)]; lia.
  Qed.
  Lemma apart tr o w : run tr o -> ~ ((exists a, answered o w a) /\ (left o w \/ underway o w)).
  Proof.
    intros H. apply inv_run in H. unfold left, underway. rewrite <- asked_iff, <- cur_iff, !count_in.
    pose proof (i_once _ _ _ _ H w). pose proof (i_gone _ _ _ _ H w). unfold place in *. lia.
  Qed.
  Lemma answers_stay o act o' w a : step o act = Some o' -> answered o w a -> answered o' w a.
  Proof.
    intros H A. unfold answered in *. destruct o as [st wa ho qu cu ru co ac cl de an go ca]. fields.
    destruct act; cbn [OwnerModel.step] in H; cases H; inversion H; subst; clear H; fields; try exact A; try (right; exact A); try (apply tell_keep; exact A);
      unfold tell_all; apply in_or_app; right; exact A.
  Qed.

  (** The counter of active operations, and when an idle connection is closed *)
  Lemma counted tr o : run tr o -> active o = length (running o) + completions o /\ NoDup (running o) /\ forall w, In w (running o) -> answered o w Started.
  Proof. intros H. apply inv_run in H. destruct H. auto. Qed.
  Lemma idle_only tr o o' : run tr o -> step o Idle = Some o' ->
    running o = [] /\ current o = None /\ (forall t, ended_at tr t -> (t + idle <= time tr)%N) /\ (idle <= time tr)%N.
  Proof.
    intros H S. pose proof (inv_run _ _ H) as [].
    assert (L : (idle <= deadline o)%N).
    { clear - H. revert o H. induction tr as [|a tr IH] using rev_ind; intros o H.
      - inversion H. cbn. lia.
      - rewrite steps_app in H. destruct (OwnerModel.steps capacity idle (start idle) tr) as [o1|] eqn:E; [|discriminate]. cbn in H.
        destruct (step o1 a) as [o2|] eqn:F; [|discriminate]. inversion H; subst. specialize (IH _ eq_refl).
        destruct o1 as [st wa ho qu cu ru co ac cl de an go ca]. fields.
        destruct a; cbn [OwnerModel.step] in F; cases F; inversion F; subst; clear F; fields; lia. }
    destruct o as [st wa ho qu cu ru co ac cl de an go ca]. fields. cbn [OwnerModel.step] in S. cases S. subst.
    match goal with K : (_ <=? _)%N = true |- _ => apply N.leb_le in K end.
    split; [destruct ru; [reflexivity | cbn in i_active; lia]|]. split; [reflexivity|].
    split; [|lia]. intros t T. specialize (i_dead eq_refl t T). lia.
  Qed.

  (** The channel is bounded, and commands are started in the order in which they were committed *)
  Lemma bounded tr o : run tr o -> length (holding o) + length (queue o) <= capacity.
  Proof. intros H. apply inv_run in H. destruct H. assumption. Qed.
  Lemma in_order tr o : run tr o -> subsequence (started o) (commits tr).
  Proof.
    intros H. apply inv_run in H. pose proof (i_order _ _ _ _ H) as O. apply (sub_trans _ _ O).
    rewrite <- (app_nil_r (started o)) at 1. apply sub_app; [apply sub_refl | apply sub_nil_l].
  Qed.

  (** A shut connection starts nothing and takes nobody *)
  Lemma shut_step o a o' : placed o -> stage o <> Running -> step o a = Some o' ->
    stage o' <> Running /\ holding o' = filter (fun w => mem w (holding o')) (holding o) /\ started o' = started o.
  Proof.
    intros P R H. change (started o) with (begun (answers o)). change (started o') with (begun (answers o')).
    assert (C : current o = None) by (destruct P as (_ & _ & _ & _ & P); auto).
    assert (F : forall l : list nat, l = filter (fun w => mem w l) l).
    { intros l. assert (G : forall m, (forall x, In x m -> In x l) -> m = filter (fun w => mem w l) m).
      { induction m as [|x m IH]; intros M; [reflexivity|]. cbn [filter].
        rewrite (proj2 (mem_in x l)) by (apply M; left; reflexivity). f_equal. apply IH. intros y Y. apply M. right. exact Y. }
      apply G. auto. }
    assert (G : forall w l, del w l = filter (fun x => mem x (del w l)) l).
    { intros w l. unfold del at 1. apply filter_ext_in. intros x X. destruct (mem x (del w l)) eqn:M.
      - apply mem_in, del_in in M as (_ & M). destruct (Nat.eqb w x) eqn:Q; [apply Nat.eqb_eq in Q; congruence | reflexivity].
      - apply mem_out in M. destruct (Nat.eqb w x) eqn:Q; [reflexivity|]. exfalso. apply M, del_in. split; [exact X|]. intros ->. rewrite Nat.eqb_refl in Q. discriminate. }
    destruct o as [st wa ho qu cu ru co ac cl de an go ca]. fields. subst cu.
    destruct a; cbn [OwnerModel.step] in H; cases H; inversion H; subst; clear H; fields; try congruence;
      (split; [congruence || discriminate | split; [apply F || apply G | rewrite ?begun_tell, ?begun_tell_all by discriminate; reflexivity]]).
  Qed.
  Lemma shut tr o tr' o' : run tr o -> stage o <> Running -> steps o tr' = Some o' ->
    stage o' <> Running /\ (forall w, In w (holding o') -> In w (holding o)) /\ started o' = started o.
  Proof.
    intros H. apply inv_run in H. apply inv_placed in H. revert o H. induction tr' as [|a tr' IH]; intros o P R S.
    - inversion S; subst. auto.
    - cbn in S. destruct (step o a) as [o1|] eqn:E; [|discriminate]. destruct (shut_step _ _ _ P R E) as (R1 & F & T).
      destruct (IH o1 (placed_step _ _ _ _ _ P E) R1 S) as (R2 & F2 & T2). split; [exact R2|]. split; [|congruence].
      intros w W. apply F2 in W. rewrite F in W. apply filter_In in W as (W & _). exact W.
  Qed.

  (** Once the connection is shut, everyone is answered without anything else happening *)
  Lemma commit_all o e : stage o = Draining e -> exists tr o', Forall settles tr /\ steps o tr = Some o' /\ stage o' = Draining e /\ holding o' = [].
  Proof.
    remember (length (holding o)) as n eqn:L. revert o L. induction n as [n IH] using lt_wf_ind. intros o L S.
    destruct (holding o) as [|w h] eqn:G.
    - exists [], o. split; [constructor | auto].
    - assert (X : exists o1, step o (Commit w) = Some o1 /\ stage o1 = Draining e /\ length (holding o1) < n).
      { destruct o as [st wa ho qu cu ru co ac cl de an go ca]. fields. cbn [OwnerModel.step]. subst ho.
        assert (M : mem w (w :: h) = true) by (apply mem_in; left; reflexivity). rewrite M. eexists. split; [reflexivity|]. fields.
        split; [exact S|]. unfold del. cbn [filter]. rewrite Nat.eqb_refl. cbn [negb]. pose proof (del_le w h). unfold del in *. cbn in L. lia. }
      destruct X as (o1 & T & S1 & L1). destruct (IH _ L1 o1 eq_refl S1) as (tr & o2 & F & T2 & R).
      exists (Commit w :: tr), o2. split; [constructor; [exact Logic.I | exact F]|]. cbn [OwnerModel.steps]. rewrite T. auto.
  Qed.
  Lemma drain_all o e : stage o = Draining e -> holding o = [] -> exists tr o', Forall settles tr /\ steps o tr = Some o' /\ stage o' = Draining e /\ holding o' = [] /\ queue o' = [].
  Proof.
    intros S G. remember (queue o) as q eqn:Q. revert o Q S G. induction q as [|w q IH]; intros o Q S G.
    - exists [], o. split; [constructor | auto].
    - assert (X : exists o1, step o Drain = Some o1 /\ q = queue o1 /\ stage o1 = Draining e /\ holding o1 = []).
      { destruct o as [st wa ho qu cu ru co ac cl de an go ca]. fields. cbn [OwnerModel.step]. subst. eexists. split; [reflexivity|]. auto. }
      destruct X as (o1 & T & Q1 & S1 & G1). destruct (IH o1 Q1 S1 G1) as (tr & o2 & F & T2 & R).
      exists (Drain :: tr), o2. split; [constructor; [exact Logic.I | exact F]|]. cbn [OwnerModel.steps]. rewrite T. auto.
  Qed.
  Lemma refuse_all o : stage o = Ended -> exists tr o', Forall settles tr /\ steps o tr = Some o' /\ stage o' = Ended /\ waiting o' = [].
  Proof.
    remember (length (waiting o)) as n eqn:L. revert o L. induction n as [n IH] using lt_wf_ind. intros o L S.
    destruct (waiting o) as [|w h] eqn:G.
    - exists [], o. split; [constructor | auto].
    - assert (X : exists o1, step o (Refuse w) = Some o1 /\ stage o1 = Ended /\ length (waiting o1) < n).
      { destruct o as [st wa ho qu cu ru co ac cl de an go ca]. fields. cbn [OwnerModel.step]. subst wa st.
        assert (M : mem w (w :: h) = true) by (apply mem_in; left; reflexivity). rewrite M. eexists. split; [reflexivity|]. fields.
        split; [reflexivity|]. unfold del. cbn [filter]. rewrite Nat.eqb_refl. cbn [negb]. pose proof (del_le w h). unfold del in *. cbn in L. lia. }
      destruct X as (o1 & T & S1 & L1). destruct (IH _ L1 o1 eq_refl S1) as (tr & o2 & F & T2 & R).
      exists (Refuse w :: tr), o2. split; [constructor; [exact Logic.I | exact F]|]. cbn [OwnerModel.steps]. rewrite T. auto.
  Qed.
  Lemma settled tr o e : run tr o -> stage o = Draining e ->
    exists tr' o', Forall settles tr' /\ run (tr ++ tr') o' /\ stage o' = Ended /\ callers o' = callers o /\ forall w, came o w -> left o w \/ exists a, answered o' w a.
  Proof.
    intros H S. destruct (commit_all o e S) as (t1 & o1 & F1 & T1 & S1 & G1).
    destruct (drain_all o1 e S1 G1) as (t2 & o2 & F2 & T2 & S2 & G2 & Q2).
    assert (X : exists o3, step o2 End = Some o3 /\ stage o3 = Ended).
    { destruct o2 as [st wa ho qu cu ru co ac cl de an go ca]. fields. cbn [OwnerModel.step]. subst. eexists. split; reflexivity. }
    destruct X as (o3 & T3 & S3). destruct (refuse_all o3 S3) as (t4 & o4 & F4 & T4 & S4 & W4).
    assert (F : Forall settles (t1 ++ t2 ++ End :: t4)).
    { apply Forall_app. split; [exact F1|]. apply Forall_app. split; [exact F2|]. constructor; [exact Logic.I | exact F4]. }
    assert (T : steps o (t1 ++ t2 ++ End :: t4) = Some o4).
    { rewrite steps_app, T1, steps_app, T2. cbn [OwnerModel.steps]. rewrite T3. exact T4. }
    assert (K : callers o4 = callers o /\ gone o4 = gone o).
    { clear - F T. revert o T. induction (t1 ++ t2 ++ End :: t4) as [|a l IH]; intros o T; [inversion T; auto|].
      inversion F as [|? ? A B]; subst. cbn in T. destruct (step o a) as [o5|] eqn:E; [|discriminate].
      destruct (IH B o5 T) as (-> & ->). destruct o as [st wa ho qu cu ru co ac cl de an go ca]. fields.
      destruct a; try (exfalso; exact A); cbn [OwnerModel.step] in E; cases E; inversion E; subst; auto. }
    destruct K as (K & K').
    assert (R : run (tr ++ t1 ++ t2 ++ End :: t4) o4) by (rewrite steps_app, H; exact T).
    exists (t1 ++ t2 ++ End :: t4), o4. repeat (split; [assumption|]). intros w C.
    pose proof (inv_run _ _ R) as I. destruct (i_end _ _ _ _ I S4) as (H4 & Q4).
    assert (C4 : current o4 = None) by (apply (i_cur _ _ _ _ I); rewrite S4; discriminate).
    assert (C' : came o4 w) by (unfold came in *; rewrite K; exact C).
    apply (nobody_lost _ _ _ R) in C' as [A|[L|[U|[U|[U|U]]]]].
    - right. exact A.
    - left. unfold left in *. rewrite <- K'. exact L.
    - rewrite W4 in U. destruct U.
    - rewrite H4 in U. destruct U.
    - rewrite Q4 in U. destruct U.
    - congruence.
  Qed.

  (** An ended connection owes nobody anything but those who did not get a permit *)
  Lemma over tr o w : run tr o -> stage o = Ended -> came o w -> (exists a, answered o w a) \/ left o w \/ In w (waiting o).
  Proof.
    intros R S C. pose proof (inv_run _ _ R) as I. destruct (i_end _ _ _ _ I S) as (H4 & Q4).
    assert (C4 : current o = None) by (apply (i_cur _ _ _ _ I); rewrite S; discriminate).
    apply (nobody_lost _ _ _ R) in C as [A|[L|[U|[U|[U|U]]]]]; auto; [rewrite H4 in U; destruct U | rewrite Q4 in U; destruct U | congruence].
  Qed.

  (** A command that is committed after the task of the owner was dropped stays in the channel *)
  Lemma stuck o w tr o' : stage o = Aborted -> In w (queue o) -> steps o tr = Some o' -> In w (queue o').
  Proof.
    revert o. induction tr as [|a tr IH]; intros o S Q H; [inversion H; subst; exact Q|]. cbn in H.
    destruct (step o a) as [o1|] eqn:E; [|discriminate]. assert (X : stage o1 = Aborted /\ In w (queue o1)).
    { destruct o as [st wa ho qu cu ru co ac cl de an go ca]. fields. subst st.
      destruct a; cbn [OwnerModel.step] in E; cases E; inversion E; subst; fields; (split; [reflexivity|]); try exact Q. apply in_or_app. left. exact Q. }
    destruct X as (S1 & Q1). exact (IH o1 S1 Q1 H).
  Qed.
  Lemma aborted tr o w tr' o' : run tr o -> stage o = Aborted -> In w (queue o) -> steps o tr' = Some o' -> ~ exists a, answered o' w a.
  Proof.
    intros R S Q H A. apply (apart (tr ++ tr') o' w); [rewrite steps_app, R; exact H|]. split; [exact A|]. right. unfold underway.
    right. right. left. exact (stuck _ _ _ _ S Q H).
  Qed.
  (** Without that, a dropped task leaves only callers that have no permit and are refused *)
  Lemma abort_step tr o o' w : run tr o -> step o Abort = Some o' -> came o w -> (exists a, answered o' w a) \/ left o w \/ In w (waiting o) \/ In w (holding o).
  Proof.
    intros R S C. assert (R' : run (tr ++ [Abort]) o') by (rewrite steps_app, R; cbn [OwnerModel.steps]; rewrite S; reflexivity).
    assert (K : callers o' = callers o /\ gone o' = gone o /\ waiting o' = waiting o /\ holding o' = holding o /\ queue o' = [] /\ current o' = None).
    { destruct o as [st wa ho qu cu ru co ac cl de an go ca]. cbn [OwnerModel.step] in S. cases S; inversion S; subst; fields; auto 9. }
    destruct K as (K1 & K2 & K3 & K4 & K5 & K6). assert (C' : came o' w) by (unfold came in *; congruence).
    apply (nobody_lost _ _ _ R') in C' as [A|[L|[U|[U|[U|U]]]]]; [left; exact A | right; left; unfold left in *; congruence | | | rewrite K5 in U; destruct U | congruence].
    - rewrite K3 in U. auto.
    - rewrite K4 in U. auto.
  Qed.
End Main.
Lemma abort_hangs idle : exists tr o, steps 1 idle (start idle) tr = Some o /\ came o 0 /\ ~ left o 0 /\ forall tr' o', steps 1 idle o tr' = Some o' -> ~ exists a, answered o' 0 a.
Proof.
  exists [Submit; Reserve; Abort; Commit 0]. eexists. split; [reflexivity|]. split; [unfold came; cbn; lia|]. split; [intros []|].
  intros tr' o' H. apply (aborted 1 idle [Submit; Reserve; Abort; Commit 0] _ 0 tr' o') in H; [exact H | reflexivity | reflexivity | left; reflexivity].
Qed.
