(* Consequences of the invariant *)
From Coq Require Import String List Bool Arith NArith Lia.
From Verif Require Import WsModel WsSpec WsBase WsProofs WsSteps.
Import ListNotations.
Open Scope list_scope.

Lemma in_asked : forall i log, In i (asked log) <-> In (asks i) log.
Proof.
  intros i log. unfold asked. rewrite in_flat_map. split.
  - intros (e & J & K). destruct e as [a|w m]; [|destruct K].
    destruct a as [[[|] [[| | |j|j]|]| | | | | |]|k o|k|k e|k|k|k| |]; try destruct K as [<-|[]]; try destruct K.
    exact J.
  - intro J. exists (asks i). split; [exact J|]. now left.
Qed.

(* What a step adds to the log *)
Lemma step_log : forall ids c a c', inv ids c -> step c a = Some c' ->
  exists w ms, c_log c' = c_log c ++ EIn a :: map (EOut w) ms
    /\ (forall m i, In m ms -> about i m -> In i ids)
    /\ (In MAck ms -> w = None /\ ms = [MAck] /\ c_received c = false /\ c_received c' = true)
    /\ (In MAck ms \/ c_received c' = c_received c).
Proof.
  intros ids c a c' I E.
  assert (Own : forall n i p, In (mktask n i p) (c_tasks c) -> In i ids).
  { intros n i p J. exact (nth_error_In _ _ (i_ids _ _ I _ J)). }
  assert (W : forall m, (forall i, ~ about i m) -> m <> MAck ->
            exists w ms, c_log (writes (notes c a) None [m]) = c_log c ++ EIn a :: map (EOut w) ms
              /\ (forall m' i, In m' ms -> about i m' -> In i ids)
              /\ (In MAck ms -> w = None /\ ms = [MAck] /\ c_received c = false
                    /\ c_received (writes (notes c a) None [m]) = true)
              /\ (In MAck ms \/ c_received (writes (notes c a) None [m]) = c_received c)).
  { intros m A B. exists None, [m]. split; [cbn; now rewrite <- app_assoc|]. split.
    - intros m' i [<-|[]] H. exfalso. exact (A i H).
    - split; [intros [H|[]]; contradiction|now right]. }
  assert (X : forall m, (exists code why, m = MClose code why) \/ m = MPong \/ (exists d, m = MWsPong d) ->
            (forall i, ~ about i m) /\ m <> MAck).
  { intros m [(code & why & ->)|[->|(d & ->)]]; (split; [intros i H; inversion H|discriminate]). }
  assert (V : forall d, c_log d = c_log c ++ [EIn a] -> c_received d = c_received c ->
            exists w ms, c_log d = c_log c ++ EIn a :: map (EOut w) ms
              /\ (forall m i, In m ms -> about i m -> In i ids)
              /\ (In MAck ms -> w = None /\ ms = [MAck] /\ c_received c = false /\ c_received d = true)
              /\ (In MAck ms \/ c_received d = c_received c)).
  { intros d L R. exists None, []. split; [exact L|]. split; [intros m i []|]. split; [intros []|now right]. }
  assert (U : forall d n i m, In i ids -> (about i m \/ exists code why, m = MClose code why) ->
            c_log d = (c_log c ++ [EIn a]) ++ map (EOut (Some n)) [m] -> c_received d = c_received c ->
            exists w ms, c_log d = c_log c ++ EIn a :: map (EOut w) ms
              /\ (forall m' j, In m' ms -> about j m' -> In j ids)
              /\ (In MAck ms -> w = None /\ ms = [MAck] /\ c_received c = false /\ c_received d = true)
              /\ (In MAck ms \/ c_received d = c_received c)).
  { intros d n i m Ji Am L R. exists (Some n), [m]. split; [rewrite L; now rewrite <- app_assoc|]. split.
    - intros m' j [<-|[]] H. destruct Am as [Am|(code & why & ->)]; [|inversion H].
      destruct Am; inversion H; now subst.
    - split; [|now right]. intros [H|[]]. subst m.
      destruct Am as [Am|(code & why & Am)]; [inversion Am|discriminate]. }
  assert (Y : forall i b, about i (next_message i b) \/ exists code why, next_message i b = MClose code why).
  { intros i [b|]; [left; constructor|right]. now exists 4500%N, "Internal Server Error"%string. }
  destruct a as [f|n o|n|n e|n|n|n| |]; cbn [step] in E.
  - destruct (c_down c); [discriminate|]. injection E as <-.
    destruct f as [[|] [m|]| | |d| | |]; cbn [on_frame]; try (now apply V);
      try (apply W; apply X; eauto; left; unfold internal_error, bad_request, unsupported; eauto; fail).
    destruct m as [| | |i|i]; cbn [message]; cbn [notes c_received c_acked c_subs].
    + destruct (c_received c) eqn:R.
      * destruct (W too_many_inits) as (w & ms & L & A & B & C);
          try (apply X; left; unfold too_many_inits; eauto).
        exists w, ms. split; [exact L|]. split; [exact A|]. split; [|].
        -- intro H. destruct (B H) as (_ & _ & F & _). discriminate.
        -- right. cbn. exact R.
      * exists None, [MAck]. split; [cbn; now rewrite <- app_assoc|]. split.
        -- intros m i [<-|[]] H. inversion H.
        -- split; [now cbn|]. left. now left.
    + apply W; apply X; auto.
    + exact (V (notes c (AFrame (FText true (Some CPong)))) eq_refl eq_refl).
    + destruct (negb (c_acked c)); [apply W; apply X; left; unfold unauthorized; eauto|].
      destruct (held i (c_subs c)); [apply W; apply X; left; unfold already_exists; eauto|].
      now apply V.
    + destruct (negb (c_acked c)); [apply W; apply X; left; unfold unauthorized; eauto|].
      now apply V.
  - destruct (find_task n (c_tasks c)) as [[m i [| | | |]]|] eqn:F; try discriminate.
    apply find_task_in in F as [_ J]. injection E as <-. assert (Ji := Own _ _ _ J).
    destruct o as [e| |e w|b|]; cbn [on_outcome].
    + now apply (U _ n i (MError i e) Ji (or_introl (about_error i e))).
    + apply (U _ n i (internal_error None) Ji); try reflexivity. right. unfold internal_error. eauto.
    + now apply (U _ n i (MError i e) Ji (or_introl (about_error i e))).
    + now apply (U _ n i (next_message i b) Ji (Y i b)).
    + now apply V.
  - destruct (find_task n (c_tasks c)) as [[m i [|r| | |]]|] eqn:F; try discriminate.
    apply find_task_in in F as [_ J]. injection E as <-. assert (Ji := Own _ _ _ J).
    apply (U _ n i r Ji); try reflexivity.
    destruct (i_task _ _ I _ J) as [(b & _ & _ & ->)|(e & w & _ & _ & ->)]; cbn [t_id].
    + left. constructor.
    + right. eauto.
  - destruct (find_task n (c_tasks c)) as [[m i [| | | |]]|] eqn:F; try discriminate.
    apply find_task_in in F as [_ J]. injection E as <-. assert (Ji := Own _ _ _ J).
    destruct e as [b|e| |]; cbn [on_event].
    + now apply (U _ n i (next_message i b) Ji (Y i b)).
    + now apply (U _ n i (MError i e) Ji (or_introl (about_error i e))).
    + now apply V.
    + now apply V.
  - destruct (find_task n (c_tasks c)) as [[m i [| | | |]]|] eqn:F; try discriminate.
    destruct (signalled c n i); [|discriminate]. injection E as <-. now apply V.
  - destruct (find_task n (c_tasks c)) as [[m i [| | | |]]|] eqn:F; try discriminate.
    apply find_task_in in F as [_ J]. injection E as <-. assert (Ji := Own _ _ _ J).
    now apply (U _ n i (MComplete i) Ji (or_introl (about_complete i))).
  - destruct (find_task n (c_tasks c)) as [[m i [| | | |]]|] eqn:F; try discriminate.
    injection E as <-. now apply V.
  - destruct (c_acked c || c_received c); [discriminate|]. injection E as <-.
    apply W; apply X; left; unfold init_timeout; eauto.
  - destruct (c_down c || existsb _ (c_tasks c)); [discriminate|]. injection E as <-. now apply V.
Qed.

Lemma before_list : forall P Q x l,
  before P Q l -> (forall e, In e x -> Q e -> exists y, In y l /\ P y) -> before P Q (l ++ x).
Proof.
  intros P Q x. induction x as [|e x IH]; intros l B K.
  - now rewrite app_nil_r.
  - change (e :: x) with ([e] ++ x). rewrite app_assoc. apply IH.
    + apply before_snoc; [exact B|]. apply K. now left.
    + intros e' J q. destruct (K e' (or_intror J) q) as (y & Jy & Py). exists y.
      split; [|exact Py]. apply in_or_app. now left.
Qed.

Definition ack_entry (e : entry) : Prop := e = EOut None MAck.
Definition op_entry (e : entry) : Prop := exists w m i, e = EOut w m /\ about i m.

Record good (c : conn) : Prop := mkgood {
  g_ack : before ack_entry op_entry (c_log c);
  g_ask : forall i, before (fun e => e = asks i) (fun e => exists w m, e = EOut w m /\ about i m) (c_log c);
  g_once : forall l1 w l2, c_log c = l1 ++ EOut w MAck :: l2 -> w = None /\ forall w', ~ In (EOut w' MAck) l2
}.

Lemma good_start : good start.
Proof.
  split; cbn.
  - apply before_nil.
  - intro i. apply before_nil.
  - intros l1 w l2 E. destruct l1; discriminate.
Qed.

Lemma op_acked : forall ids c i, inv ids c -> In i ids ->
  In (EOut None MAck) (c_log c) /\ In (asks i) (c_log c).
Proof.
  intros ids c i I J. split.
  - apply (i_recv _ _ I). apply (i_some _ _ I). rewrite <- (i_len _ _ I). intro Z.
    destruct ids; [destruct J|discriminate].
  - apply in_asked. exact (i_incl _ _ I i J).
Qed.

Lemma good_step : forall ids c a c', inv ids c -> good c -> step c a = Some c' -> good c'.
Proof.
  intros ids c a c' I G E. destruct (step_log ids c a c' I E) as (w & ms & L & A & B & _). split.
  - rewrite L. apply before_list; [exact (g_ack _ G)|].
    intros e J (w' & m & i & -> & H). exists (EOut None MAck). split; [|reflexivity].
    destruct J as [J|J]; [discriminate|]. apply in_map_iff in J as (m' & Em & Jm). injection Em as <- <-.
    exact (proj1 (op_acked ids c i I (A m' i Jm H))).
  - intro i. rewrite L. apply before_list; [exact (g_ask _ G i)|].
    intros e J (w' & m & -> & H). exists (asks i). split; [|reflexivity].
    destruct J as [J|J]; [discriminate|]. apply in_map_iff in J as (m' & Em & Jm). injection Em as <- <-.
    exact (proj2 (op_acked ids c i I (A m' i Jm H))).
  - (* no acknowledgement is left over by others *)
    assert (N : forall k, In (EOut k MAck) (c_log c) -> c_received c = true).
    { intros k J. apply in_split in J as (l1 & l2 & S). destruct (g_once _ G l1 k l2 S) as [-> _].
      apply (i_recv _ _ I). rewrite S. apply in_or_app. right. now left. }
    intros l1 k l2 S. rewrite L in S.
    destruct (in_dec (fun x y : out => ltac:(decide equality; try apply string_dec; apply N.eq_dec)) MAck ms) as [M|M].
    + destruct (B M) as (-> & -> & R & _). cbn in S.
      change (c_log c ++ [EIn a; EOut None MAck]) with (c_log c ++ [EIn a] ++ [EOut None MAck]) in S.
      rewrite app_assoc in S. symmetry in S.
      destruct (snoc_split _ _ _ _ _ _ S) as [(-> & Ek & _)|(l2' & -> & S')].
      * injection Ek as ->. split; [reflexivity|]. intros w' [].
      * exfalso. assert (J : In (EOut k MAck) (c_log c ++ [EIn a])).
        { rewrite S'. apply in_or_app. right. now left. }
        apply in_app_or in J as [J|[J|[]]]; [|discriminate]. assert (F := N k J). congruence.
    + assert (J : In (EOut k MAck) (c_log c ++ EIn a :: map (EOut w) ms)).
      { rewrite S. apply in_or_app. right. now left. }
      assert (Z : forall k', ~ In (EOut k' MAck) (EIn a :: map (EOut w) ms)).
      { intros k' [H|H]; [discriminate|]. apply in_map_iff in H as (m' & Em & Jm).
        injection Em as _ ->. contradiction. }
      apply in_app_or in J as [J|J]; [|exfalso; exact (Z k J)].
      assert (Q : exists q, l2 = q ++ EIn a :: map (EOut w) ms /\ c_log c = l1 ++ EOut k MAck :: q).
      { apply app_eq_app in S as (q & [[E1 E2]|[E1 E2]]).
        - destruct q as [|h q].
          + exfalso. cbn in E2. apply (Z k). rewrite <- E2. now left.
          + cbn in E2. injection E2 as <- ->. exists q. split; [reflexivity|].
            rewrite E1. reflexivity.
        - exfalso. apply (Z k). rewrite E2. apply in_or_app. right. now left. }
      destruct Q as (q & -> & Sq). destruct (g_once _ G l1 k q Sq) as [Ek O]. split; [exact Ek|].
      intros w' H. apply in_app_or in H as [H|H]; [exact (O w' H)|exact (Z w' H)].
Qed.

Lemma steps_all : forall l c c' ids, inv ids c -> good c -> steps c l = Some c' -> good c'.
Proof.
  intro l. induction l as [|a l IH]; cbn; intros c c' ids I G E.
  - injection E as <-. exact G.
  - destruct (step c a) as [d|] eqn:H; [|discriminate]. destruct (inv_step ids c a d I H) as [ids' I'].
    exact (IH d c' ids' I' (good_step ids c a d I G H) E).
Qed.

Lemma reached_good : forall l c, steps start l = Some c -> good c.
Proof. intros l c. exact (steps_all l start c [] inv_start good_start). Qed.

Lemma reached_inv : forall l c, steps start l = Some c -> exists ids, inv ids c.
Proof. intros l c. exact (inv_steps l [] start c inv_start). Qed.

(* The words of the instances *)
Lemma finished_shape : forall n i log, finished n i log -> shape i (heard n log) (said n log).
Proof.
  intros n i log [J E|E|e H E|e J E|e w H E|H E]; rewrite E.
  - apply sh_open.
  - apply sh_complete.
  - rewrite H. exact (sh_error i [] e).
  - apply sh_error_complete.
  - now apply sh_forbidden.
  - now apply sh_broken.
Qed.

Lemma task_shape : forall log t, task_inv log t ->
  shape (t_id t) (heard (t_inst t) log) (said (t_inst t) log).
Proof.
  intros log t T. unfold task_inv in T. destruct (t_phase t) as [|m| | |].
  - destruct T as (S & H & _). rewrite S, H. apply sh_open.
  - destruct T as [(b & S & H & _)|(e & w & S & H & _)]; rewrite S, H.
    + exact (sh_open (t_id t) [b]).
    + exact (sh_error (t_id t) [] e).
  - destruct T as [S _]. rewrite S. apply sh_open.
  - destruct T as [S|(e & _ & S)]; rewrite S; [apply sh_open|apply sh_error].
  - now apply finished_shape.
Qed.

Lemma shaped : forall ids c n, inv ids c ->
  (exists i, In (asks i) (c_log c) /\ shape i (heard n (c_log c)) (said n (c_log c)))
  \/ (said n (c_log c) = [] /\ heard n (c_log c) = []).
Proof.
  intros ids c n I. destruct (nth_error ids n) as [i|] eqn:E.
  - left. exists i. split; [apply in_asked; exact (i_incl _ _ I i (nth_error_In _ _ E))|].
    destruct (in_dec Nat.eq_dec n (map t_inst (c_tasks c))) as [J|J].
    + apply in_map_iff in J as (t & <- & J). assert (K := i_ids _ _ I t J).
      rewrite K in E. injection E as <-. apply task_shape. exact (i_task _ _ I t J).
    + apply finished_shape. exact (i_gone _ _ I n i E J).
  - right. apply nth_error_None in E. rewrite (i_len _ _ I) in E.
    destruct (i_new _ _ I n E) as (A & B & _). now split.
Qed.

Lemma ended : forall ids c n, inv ids c -> n < c_next c -> ~ In n (map t_inst (c_tasks c)) ->
  exists i, In (asks i) (c_log c) /\ finished n i (c_log c).
Proof.
  intros ids c n I L J. rewrite <- (i_len _ _ I) in L. apply nth_error_Some in L.
  destruct (nth_error ids n) as [i|] eqn:E; [|contradiction]. exists i.
  split; [apply in_asked; exact (i_incl _ _ I i (nth_error_In _ _ E))|].
  exact (i_gone _ _ I n i E J).
Qed.

Lemma answers_next : forall i bs, (forall b, In b bs -> b <> None) ->
  exists vs, map (answer i) bs = map (MNext i) vs.
Proof.
  intros i bs. induction bs as [|b bs IH]; intro K; [now exists []|].
  destruct IH as [vs E]; [intros x J; apply K; now right|].
  destruct b as [v|]; [|exfalso; apply (K None); [now left|reflexivity]].
  exists (v :: vs). cbn. now rewrite E.
Qed.

(* Without an error on the stream the protocol is kept. *)
Lemma task_allowed : forall log t, task_inv log t ->
  (forall e, ~ In (EIn (AEvent (t_inst t) (EError e))) log) ->
  (forall b, In b (heard (t_inst t) log) -> b <> None) ->
  (forall code why, ~ In (MClose code why) (said (t_inst t) log)) ->
  allowed (t_id t) (said (t_inst t) log).
Proof.
  intros log t T NE HB NC.
  destruct (answers_next (t_id t) _ HB) as [vs V].
  assert (Fin : finished (t_inst t) (t_id t) log -> allowed (t_id t) (said (t_inst t) log)).
  { intros [J E|E|e H E|e J E|e w H E|H E]; rewrite E in *.
    - rewrite V. apply al_open.
    - rewrite V. apply al_complete.
    - exact (al_error _ [] e).
    - exfalso. exact (NE e J).
    - exfalso. apply (NC 4403%N w). right. now left.
    - exfalso. apply (NC 4500%N "Internal Server Error"%string). now left. }
  unfold task_inv in T. destruct (t_phase t) as [|m| | |].
  - destruct T as (S & _). rewrite S. exact (al_open _ []).
  - destruct T as [(b & S & H & _)|(e & w & S & H & _)]; rewrite S.
    + rewrite H in V. cbn in V. rewrite V. apply al_open.
    + exact (al_error _ [] e).
  - destruct T as [S _]. rewrite S, V. apply al_open.
  - destruct T as [S|(e & J & S)].
    + rewrite S, V. apply al_open.
    + exfalso. exact (NE e J).
  - exact (Fin T).
Qed.

Lemma protocol : forall l c n, steps start l = Some c ->
  (forall e, ~ In (EIn (AEvent n (EError e))) (c_log c)) ->
  (forall b, In b (heard n (c_log c)) -> b <> None) ->
  (forall code why, ~ In (MClose code why) (said n (c_log c))) ->
  exists i, allowed i (said n (c_log c)).
Proof.
  intros l c n E NE HB NC. destruct (reached_inv l c E) as [ids I].
  destruct (nth_error ids n) as [i|] eqn:Ei.
  - exists i. destruct (in_dec Nat.eq_dec n (map t_inst (c_tasks c))) as [J|J].
    + apply in_map_iff in J as (t & <- & J). assert (K := i_ids _ _ I t J).
      rewrite K in Ei. injection Ei as <-. apply task_allowed; try assumption. exact (i_task _ _ I t J).
    + exact (task_allowed (c_log c) (mktask n i Ending) (i_gone _ _ I n i Ei J) NE HB NC).
  - exists ""%string. apply nth_error_None in Ei. rewrite (i_len _ _ I) in Ei.
    destruct (i_new _ _ I n Ei) as (A & _). rewrite A. exact (al_open _ []).
Qed.

(* What the client gets of a stream is what the stream got. *)
Lemma stream_passes : forall l c n i, steps start l = Some c ->
  In (mktask n i Looping) (c_tasks c) ->
  said n (c_log c) = map (answer i) (heard n (c_log c)).
Proof.
  intros l c n i E J. destruct (reached_inv l c E) as [ids I].
  destruct (i_task _ _ I _ J) as [S _]. exact S.
Qed.

Lemma shape_reached : forall l c n, steps start l = Some c ->
  (exists i, In (asks i) (c_log c) /\ shape i (heard n (c_log c)) (said n (c_log c)))
  \/ (said n (c_log c) = [] /\ heard n (c_log c) = []).
Proof. intros l c n E. destruct (reached_inv l c E) as [ids I]. exact (shaped ids c n I). Qed.

Lemma ended_reached : forall l c n, steps start l = Some c ->
  n < c_next c -> ~ In n (map t_inst (c_tasks c)) ->
  exists i, In (asks i) (c_log c) /\ finished n i (c_log c).
Proof. intros l c n E L J. destruct (reached_inv l c E) as [ids I]. exact (ended ids c n I L J). Qed.
