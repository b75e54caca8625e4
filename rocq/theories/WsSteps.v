(* Every step keeps the invariant. *)
From Coq Require Import String List Bool Arith NArith Lia.
From Verif Require Import WsModel WsSpec WsBase WsProofs.
Import ListNotations.
Open Scope list_scope.

(* What the connection writes by itself *)
Lemma inv_write : forall ids c a ms,
  inv ids c -> (forall n, other n a) -> asked [EIn a] = [] ->
  ~ In MAck ms ->
  inv ids (writes (notes c a) None ms).
Proof.
  intros ids c a ms I O A M.
  apply (inv_quiet ids c _ (EIn a :: map (EOut None) ms) I); try reflexivity; cbn -[asked].
  - now rewrite <- app_assoc.
  - intro n. change (EIn a :: map (EOut None) ms) with ([EIn a] ++ map (EOut None) ms).
    apply quiet_app; [apply quiet_in, O|apply quiet_none].
  - change (EIn a :: map (EOut None) ms) with ([EIn a] ++ map (EOut None) ms).
    rewrite asked_app, A. induction ms as [|m ms IH]; [reflexivity|].
    apply IH. intro J. apply M. now right.
  - split; [now left|]. intros [H|[H|H]]; [exact H|discriminate|].
    apply in_map_iff in H as (m & E & J). injection E as ->. contradiction.
  - intro H. split; [exact (i_acked _ _ I H)|exact H].
  - trivial.
  - trivial.
  - exact (i_down _ _ I).
Qed.

Lemma inv_note : forall ids c a,
  inv ids c -> (forall n, other n a) -> asked [EIn a] = [] -> inv ids (notes c a).
Proof.
  intros ids c a I O A. assert (E : writes (notes c a) None [] = notes c a).
  { unfold writes, notes. cbn. now rewrite app_nil_r. }
  rewrite <- E. apply inv_write; try assumption. intros [].
Qed.

Lemma inv_message : forall ids c m c',
  inv ids c -> c_down c = false ->
  message (notes c (AFrame (FText true (Some m)))) m = c' ->
  exists ids', inv ids' c'.
Proof.
  intros ids c m c' I D E. subst c'. destruct m as [| | |i|i]; cbn [message].
  - cbn [notes c_received]. destruct (c_received c) eqn:R.
    + exists ids. apply inv_write; try easy. intros [H|[]]. discriminate.
    + exists ids.
      apply (inv_quiet ids c _ (EIn (AFrame (FText true (Some CInit))) :: [EOut None MAck]) I);
        try reflexivity; cbn.
      * now rewrite <- app_assoc.
      * intro n. change [EIn (AFrame (FText true (Some CInit))); EOut None MAck]
          with ([EIn (AFrame (FText true (Some CInit)))] ++ map (EOut None) [MAck]).
        apply quiet_app; [now apply quiet_in|apply quiet_none].
      * split; [auto|reflexivity].
      * auto.
      * trivial.
      * rewrite D. discriminate.
  - exists ids. apply inv_write; try easy. intros [H|[]]. discriminate.
  - exists ids. now apply inv_note.
  - cbn [notes c_acked c_subs]. destruct (c_acked c) eqn:K; cbn [negb].
    + destruct (held i (c_subs c)) as [k|] eqn:H.
      * exists ids.
        (* the id is asked for again, nothing is added *)
        assert (Q : forall n, quiet n [asks i]) by (intro n; now apply quiet_in).
        split; cbn.
        -- rewrite !in_app_iff, (i_recv _ _ I). cbn. unfold asks, already_exists. intuition discriminate.
        -- rewrite K, D. intros _. rewrite <- (i_acked _ _ I D). now rewrite K.
        -- intro N. destruct (i_some _ _ I N) as [A B]. split; [exact A|exact K].
        -- exact (i_inst _ _ I).
        -- exact (i_lt _ _ I).
        -- exact (i_len _ _ I).
        -- rewrite !asked_app. cbn. rewrite app_nil_r. apply incl_appl. exact (i_incl _ _ I).
        -- rewrite !asked_app. cbn. rewrite app_nil_r. intro N. apply NoDup_remove_1 in N.
           rewrite app_nil_r in N. exact (i_nodup _ _ I N).
        -- exact (i_ids _ _ I).
        -- intros t J. rewrite <- app_assoc. apply task_quiet; [|exact (i_task _ _ I t J)].
           apply quiet_app; [apply Q|apply (quiet_none _ [already_exists i])].
        -- intros n j E J. rewrite <- app_assoc. apply finished_quiet; [|exact (i_gone _ _ I n j E J)].
           apply quiet_app; [apply Q|apply (quiet_none _ [already_exists i])].
        -- intros n J. rewrite <- app_assoc. apply quiet_app; [exact (i_new _ _ I n J)|].
           apply quiet_app; [apply Q|apply (quiet_none _ [already_exists i])].
        -- exact (i_subs _ _ I).
        -- exact (i_down _ _ I).
      * exists (ids ++ [i]). assert (B := inv_add ids c i I D K). rewrite K in B. exact B.
    + (* not acknowledged: there are no instances *)
      assert (Z : c_next c = 0).
      { destruct (Nat.eq_dec (c_next c) 0) as [Z|Z]; [exact Z|].
        destruct (i_some _ _ I Z). congruence. }
      assert (Q : forall n, quiet n ([asks i] ++ map (EOut None) [unauthorized])).
      { intro n. apply quiet_app; [now apply quiet_in|apply quiet_none]. }
      exists ids. split; cbn.
      * rewrite !in_app_iff, (i_recv _ _ I). cbn. unfold unauthorized. intuition discriminate.
      * exact (i_acked _ _ I).
      * intro N. contradiction.
      * exact (i_inst _ _ I).
      * exact (i_lt _ _ I).
      * exact (i_len _ _ I).
      * rewrite !asked_app. cbn. rewrite app_nil_r. apply incl_appl. exact (i_incl _ _ I).
      * rewrite !asked_app. cbn. rewrite app_nil_r. intro N. apply NoDup_remove_1 in N.
        rewrite app_nil_r in N. exact (i_nodup _ _ I N).
      * exact (i_ids _ _ I).
      * intros t J. rewrite <- app_assoc. apply task_quiet; [apply Q|exact (i_task _ _ I t J)].
      * intros n j E J. rewrite <- app_assoc. apply finished_quiet; [apply Q|exact (i_gone _ _ I n j E J)].
      * intros n J. rewrite <- app_assoc. apply quiet_app; [exact (i_new _ _ I n J)|apply Q].
      * exact (i_subs _ _ I).
      * exact (i_down _ _ I).
  - cbn [notes c_acked c_subs]. destruct (c_acked c) eqn:K; cbn [negb].
    + exists ids.
      apply (inv_quiet ids c _ [completes i] I); try reflexivity; cbn.
      * intro n. now apply quiet_in.
      * split; [auto|]. intros [H|[H|[]]]; [exact H|discriminate].
      * intro H. split; [exact (i_acked _ _ I H)|exact H].
      * trivial.
      * intros j n. rewrite held_release. destruct (String.eqb j i); [discriminate|trivial].
      * exact (i_down _ _ I).
    + exists ids. apply inv_write; try easy. intros [H|[]]. discriminate.
Qed.

Lemma inv_frame : forall ids c f c',
  inv ids c -> c_down c = false -> on_frame (notes c (AFrame f)) f = c' -> exists ids', inv ids' c'.
Proof.
  assert (W : forall ids c f m, inv ids c -> m <> MAck -> asked [EIn (AFrame f)] = [] ->
            exists ids', inv ids' (writes (notes c (AFrame f)) None [m])).
  { intros ids c f m I M A. exists ids. apply inv_write; try easy. intros [H|[]]. congruence. }
  assert (V : forall ids c f, inv ids c -> asked [EIn (AFrame f)] = [] ->
            exists ids', inv ids' (notes c (AFrame f))).
  { intros ids c f I A. exists ids. now apply inv_note. }
  intros ids c f c' I D E. destruct f as [[|] [m|]| | | | | |]; cbn [on_frame] in E.
  - exact (inv_message ids c m c' I D E).
  - subst c'. now apply (W ids).
  - subst c'. apply (W ids); try easy. 
  - subst c'. apply (W ids); try easy.
  - subst c'. now apply (W ids).
  - subst c'. now apply (W ids).
  - subst c'. now apply (W ids).
  - subst c'. now apply (V ids).
  - subst c'. now apply (V ids).
  - subst c'. now apply (V ids).
Qed.

Lemma find_task_in : forall n l m i p, find_task n l = Some (mktask m i p) -> m = n /\ In (mktask n i p) l.
Proof. intros n l m i p H. destruct (find_in _ _ _ H) as [J E]. cbn in E. subst. auto. Qed.

(* The entries of a step of instance n *)
Lemma quiet_own : forall n k a ms, k <> n -> (forall j, j <> n -> other j a) ->
  quiet k (EIn a :: map (EOut (Some n)) ms).
Proof.
  intros n k a ms D O. change (EIn a :: map (EOut (Some n)) ms) with ([EIn a] ++ map (EOut (Some n)) ms).
  apply quiet_app; [apply quiet_in, O, D|]. apply quiet_some. congruence.
Qed.

Lemma asked_own : forall n a ms, asked [EIn a] = [] -> asked (EIn a :: map (EOut (Some n)) ms) = [].
Proof.
  intros n a ms A. change (EIn a :: map (EOut (Some n)) ms) with ([EIn a] ++ map (EOut (Some n)) ms).
  rewrite asked_app, A. induction ms as [|m ms IH]; [reflexivity|exact IH].
Qed.

Lemma ack_own : forall n a ms, ~ In (EOut None MAck) (EIn a :: map (EOut (Some n)) ms).
Proof.
  intros n a ms [H|H]; [discriminate|]. apply in_map_iff in H as (m & E & _). discriminate.
Qed.

Lemma said_own : forall n log a ms,
  said n (log ++ EIn a :: map (EOut (Some n)) ms) = said n log ++ ms.
Proof.
  intros n log a ms. rewrite said_app. f_equal.
  change (EIn a :: map (EOut (Some n)) ms) with ([EIn a] ++ map (EOut (Some n)) ms).
  rewrite said_app, said_some. reflexivity.
Qed.

Lemma heard_own : forall n log a ms,
  heard n (log ++ EIn a :: map (EOut (Some n)) ms) = heard n log ++ heard n [EIn a].
Proof.
  intros n log a ms. rewrite heard_app. f_equal.
  change (EIn a :: map (EOut (Some n)) ms) with ([EIn a] ++ map (EOut (Some n)) ms).
  rewrite heard_app, heard_some. apply app_nil_r.
Qed.

Lemma next_answer : forall i b, next_message i b = answer i b.
Proof. intros i [v|]; reflexivity. Qed.

(* A handler holds no sender. *)
Lemma handler_free : forall ids c n i p, inv ids c -> In (mktask n i p) (c_tasks c) ->
  streaming p = false -> forall j k, held j (c_subs c) = Some k -> held j (c_subs c) = Some k /\ k <> n.
Proof.
  intros ids c n i p I J P j k H. split; [exact H|]. intros ->.
  destruct (i_subs _ _ I j n H) as (t & Jt & E1 & _ & E3).
  rewrite (one_task _ t (mktask n i p) (i_inst _ _ I) Jt J E1) in E3. cbn in E3. congruence.
Qed.

Lemma handler_up : forall ids c n i p, inv ids c -> In (mktask n i p) (c_tasks c) ->
  streaming p = false -> c_down c = true -> False.
Proof. intros ids c n i p I J P D. assert (B := i_down _ _ I D _ J). cbn in B. congruence. Qed.

Lemma inv_outcome : forall ids c n i o,
  inv ids c -> In (mktask n i Waiting) (c_tasks c) ->
  inv ids (on_outcome (notes c (AOutcome n o)) n i o).
Proof.
  intros ids c n i o I J. destruct (i_task _ _ I _ J) as (S1 & H1 & N1). cbn in S1, H1, N1.
  assert (O : forall j, j <> n -> other j (AOutcome n o)) by (intros j D E; now apply D).
  assert (HF := handler_free ids c n i _ I J eq_refl).
  assert (HU := handler_up ids c n i _ I J eq_refl).
  assert (Z : forall b, heard n [EIn (AOutcome n (OSingle b))] = [b]).
  { intro b. cbn. now rewrite Nat.eqb_refl. }
  destruct o as [e| |e w|b|]; cbn [on_outcome].
  - apply (inv_end ids c _ (EIn (AOutcome n (OError e)) :: map (EOut (Some n)) [MError i e]) n i Waiting I J);
      try reflexivity; try exact HF.
    + cbn. now rewrite <- app_assoc.
    + intros k D. now apply quiet_own.
    + apply ack_own.
    + cbn [with_tasks writes notes c_log]. rewrite <- app_assoc. cbn [app].
      apply (fin_failed _ _ _ e).
      * rewrite heard_own, H1. reflexivity.
      * rewrite said_own, S1. reflexivity.
  - apply (inv_end ids c _ (EIn (AOutcome n OBroken) :: map (EOut (Some n)) [internal_error None]) n i Waiting I J);
      try reflexivity; try exact HF.
    + cbn. now rewrite <- app_assoc.
    + intros k D. now apply quiet_own.
    + apply ack_own.
    + cbn [with_tasks writes notes c_log]. rewrite <- app_assoc. cbn [app].
      apply fin_broken.
      * rewrite heard_own, H1. reflexivity.
      * rewrite said_own, S1. reflexivity.
  - apply (inv_set ids c _ (EIn (AOutcome n (OForbidden e w)) :: map (EOut (Some n)) [MError i e])
             n i Waiting (Replying (forbidden w)) I J); try reflexivity; try discriminate.
    + cbn. now rewrite <- app_assoc.
    + intros k D. now apply quiet_own.
    + apply ack_own.
    + intros j k H. left. exact H.
    + intro D. exfalso. exact (HU D).
    + cbn [with_tasks writes notes c_log]. rewrite <- app_assoc. cbn [app].
      right. exists e, w. cbn [t_inst t_id]. rewrite said_own, heard_own, S1, H1. repeat split.
  - apply (inv_set ids c _ (EIn (AOutcome n (OSingle b)) :: map (EOut (Some n)) [next_message i b])
             n i Waiting (Replying (MComplete i)) I J); try reflexivity; try discriminate.
    + cbn. now rewrite <- app_assoc.
    + intros k D. now apply quiet_own.
    + apply ack_own.
    + intros j k H. left. exact H.
    + intro D. exfalso. exact (HU D).
    + cbn [with_tasks writes notes c_log]. rewrite <- app_assoc. cbn [app].
      left. exists b. cbn [t_inst t_id]. rewrite said_own, heard_own, S1, H1, Z, next_answer.
      repeat split.
  - apply (inv_set ids c _ (EIn (AOutcome n OStream) :: map (EOut (Some n)) [])
             n i Waiting Looping I J); try reflexivity; try discriminate.
    + intros k D. now apply quiet_own.
    + apply ack_own.
    + intros j k. cbn [with_tasks with_subs notes c_subs]. rewrite held_hold.
      destruct (String.eqb_spec j i) as [E|E].
      * intro H. injection H as <-. right. auto.
      * intro H. left. exact H.
    + cbn [with_tasks with_subs notes c_log]. split; cbn [t_inst t_id].
      * assert (B := said_own n (c_log c) (AOutcome n OStream) []). cbn [map] in B. rewrite B, S1.
        assert (B' := heard_own n (c_log c) (AOutcome n OStream) []). cbn [map] in B'. rewrite B', H1.
        reflexivity.
      * apply in_or_app. right. now left.
Qed.

Lemma inv_event : forall ids c n i e,
  inv ids c -> In (mktask n i Looping) (c_tasks c) ->
  inv ids (on_event (notes c (AEvent n e)) n i e).
Proof.
  intros ids c n i e I J. destruct (i_task _ _ I _ J) as (S1 & O1). cbn in S1, O1.
  assert (O : forall j, j <> n -> other j (AEvent n e)) by (intros j D E; now apply D).
  assert (Same : set_phase n Looping (c_tasks c) = c_tasks c).
  { unfold set_phase. rewrite <- (map_id (c_tasks c)) at 2. apply map_ext_in. intros t K.
    destruct (Nat.eqb_spec (t_inst t) n) as [E|E]; [|reflexivity].
    now rewrite (one_task _ t (mktask n i Looping) (i_inst _ _ I) K J E). }
  destruct e as [b|e| |]; cbn [on_event].
  - apply (inv_set ids c _ (EIn (AEvent n (ERaw b)) :: map (EOut (Some n)) [next_message i b])
             n i Looping Looping I J); try reflexivity.
    + cbn. now rewrite <- app_assoc.
    + intros k D. now apply quiet_own.
    + apply ack_own.
    + cbn. now rewrite Same.
    + intros j k H. left. exact H.
    + cbn [writes notes c_log]. rewrite <- app_assoc. cbn [app]. split; cbn [t_inst t_id].
      * rewrite said_own, heard_own, S1, next_answer. cbn. rewrite Nat.eqb_refl. now rewrite map_app.
      * apply in_or_app. now left.
  - apply (inv_set ids c _ (EIn (AEvent n (EError e)) :: map (EOut (Some n)) [MError i e])
             n i Looping Last I J); try reflexivity.
    + cbn. now rewrite <- app_assoc.
    + intros k D. now apply quiet_own.
    + apply ack_own.
    + intros j k H. left. exact H.
    + cbn [with_tasks writes notes c_log]. rewrite <- app_assoc. cbn [app]. right. exists e.
      cbn [t_inst t_id]. split; [apply in_or_app; right; now left|]. rewrite said_own, heard_own, S1. cbn [heard flat_map app].
      now rewrite app_nil_r.
  - apply (inv_set ids c _ (EIn (AEvent n ELagged) :: map (EOut (Some n)) [])
             n i Looping Looping I J); try reflexivity.
    + intros k D. now apply quiet_own.
    + apply ack_own.
    + cbn. now rewrite Same.
    + intros j k H. left. exact H.
    + cbn [notes c_log]. split; cbn [t_inst t_id].
      * assert (B := said_own n (c_log c) (AEvent n ELagged) []). cbn [map] in B. rewrite B, S1.
        assert (B' := heard_own n (c_log c) (AEvent n ELagged) []). cbn [map] in B'. rewrite B'.
        cbn [heard flat_map app]. now rewrite !app_nil_r.
      * apply in_or_app. now left.
  - apply (inv_set ids c _ (EIn (AEvent n EClosed) :: map (EOut (Some n)) [])
             n i Looping Last I J); try reflexivity.
    + intros k D. now apply quiet_own.
    + apply ack_own.
    + intros j k H. left. exact H.
    + cbn [with_tasks notes c_log]. left. cbn [t_inst t_id].
      assert (B := said_own n (c_log c) (AEvent n EClosed) []). cbn [map] in B. rewrite B, S1.
      assert (B' := heard_own n (c_log c) (AEvent n EClosed) []). cbn [map] in B'. rewrite B'.
      cbn [heard flat_map app]. now rewrite !app_nil_r.
Qed.

Lemma inv_step : forall ids c a c', inv ids c -> step c a = Some c' -> exists ids', inv ids' c'.
Proof.
  intros ids c a c' I E. destruct a as [f|n o|n|n e|n|n|n| |]; cbn [step] in E.
  - destruct (c_down c) eqn:D; [discriminate|]. injection E as E. exact (inv_frame ids c f c' I D E).
  - destruct (find_task n (c_tasks c)) as [[m i [| | | |]]|] eqn:F; try discriminate.
    apply find_task_in in F as [_ J]. injection E as <-. exists ids. now apply inv_outcome.
  - destruct (find_task n (c_tasks c)) as [[m i [|r| | |]]|] eqn:F; try discriminate.
    apply find_task_in in F as [_ J]. injection E as <-. exists ids.
    apply (inv_end ids c _ (EIn (AReply n) :: map (EOut (Some n)) [r]) n i (Replying r) I J); try reflexivity.
    + cbn. now rewrite <- app_assoc.
    + intros k D. now apply quiet_own.
    + apply ack_own.
    + exact (handler_free ids c n i _ I J eq_refl).
    + cbn [with_tasks writes notes c_log]. rewrite <- app_assoc. cbn [app].
      destruct (i_task _ _ I _ J) as [(b & S1 & H1 & ->)|(e & w & S1 & H1 & ->)]; cbn [t_inst t_id] in *.
      * apply fin_completed. rewrite said_own, heard_own, S1, H1. reflexivity.
      * apply (fin_forbidden _ _ _ e w).
        -- rewrite heard_own, H1. reflexivity.
        -- rewrite said_own, S1. reflexivity.
  - destruct (find_task n (c_tasks c)) as [[m i [| | | |]]|] eqn:F; try discriminate.
    apply find_task_in in F as [_ J]. injection E as <-. exists ids. now apply inv_event.
  - destruct (find_task n (c_tasks c)) as [[m i [| | | |]]|] eqn:F; try discriminate.
    apply find_task_in in F as [_ J]. destruct (signalled c n i); [|discriminate].
    injection E as <-. exists ids.
    apply (inv_set ids c _ (EIn (ACancel n) :: map (EOut (Some n)) []) n i Looping Ending I J); try reflexivity.
    + intros k D. now apply quiet_own.
    + apply ack_own.
    + intros j k H. left. exact H.
    + cbn [with_tasks notes c_log]. destruct (i_task _ _ I _ J) as (S1 & _). cbn [t_inst t_id] in S1.
      apply fin_cancelled; cbn [t_inst t_id].
      * apply in_or_app. right. now left.
      * assert (B := said_own n (c_log c) (ACancel n) []). cbn [map] in B. rewrite B, S1.
        assert (B' := heard_own n (c_log c) (ACancel n) []). cbn [map] in B'. rewrite B'.
        cbn [heard flat_map app]. now rewrite !app_nil_r.
  - destruct (find_task n (c_tasks c)) as [[m i [| | | |]]|] eqn:F; try discriminate.
    apply find_task_in in F as [_ J]. injection E as <-. exists ids.
    apply (inv_set ids c _ (EIn (ALast n) :: map (EOut (Some n)) [MComplete i]) n i Last Ending I J); try reflexivity.
    + cbn. now rewrite <- app_assoc.
    + intros k D. now apply quiet_own.
    + apply ack_own.
    + intros j k H. left. exact H.
    + cbn [with_tasks writes notes c_log]. rewrite <- app_assoc. cbn [app].
      destruct (i_task _ _ I _ J) as [S1|(e & K1 & S1)]; cbn [t_inst t_id] in S1.
      * apply fin_completed; cbn [t_inst t_id]. rewrite said_own, heard_own, S1.
        cbn [heard flat_map app]. now rewrite app_nil_r.
      * apply (fin_stream_failed _ _ _ e); cbn [t_inst t_id]; [apply in_or_app; now left|]. rewrite said_own, heard_own, S1.
        cbn [heard flat_map app]. rewrite app_nil_r. now rewrite <- app_assoc.
  - destruct (find_task n (c_tasks c)) as [[m i [| | | |]]|] eqn:F; try discriminate.
    apply find_task_in in F as [_ J]. injection E as <-. exists ids.
    apply (inv_end ids c _ (EIn (ADrop n) :: map (EOut (Some n)) []) n i Ending I J); try reflexivity.
    + intros k D. now apply quiet_own.
    + apply ack_own.
    + intros j k. cbn [with_tasks with_subs notes c_subs]. rewrite held_release.
      destruct (String.eqb_spec j i) as [D|D]; [discriminate|]. intro H. split; [exact H|]. intros ->.
      destruct (i_subs _ _ I j n H) as (t & Jt & E1 & E2 & _).
      rewrite (one_task _ t (mktask n i Ending) (i_inst _ _ I) Jt J E1) in E2. cbn in E2. congruence.
    + cbn [with_tasks with_subs notes c_log]. apply finished_quiet; [now apply quiet_in|].
      exact (i_task _ _ I _ J).
  - destruct (c_acked c || c_received c); [discriminate|]. injection E as <-. exists ids.
    apply inv_write; try easy. intros [H|[]]. discriminate.
  - destruct (c_down c || existsb _ (c_tasks c)) eqn:D; [discriminate|]. injection E as <-.
    apply orb_false_iff in D as [D W]. exists ids.
    apply (inv_quiet ids c _ [EIn AShutdown] I); try reflexivity; cbn.
    + intro n. now apply quiet_in.
    + split; [auto|]. intros [H|[H|[]]]; [exact H|discriminate].
    + discriminate.
    + discriminate.
    + intros _ t J. destruct (t_phase t) eqn:P; try reflexivity; exfalso.
      * assert (B : existsb (fun t => match t_phase t with Waiting | Replying _ => true | _ => false end)
                            (c_tasks c) = true)
          by (apply existsb_exists; exists t; split; [exact J|now rewrite P]). congruence.
      * assert (B : existsb (fun t => match t_phase t with Waiting | Replying _ => true | _ => false end)
                            (c_tasks c) = true)
          by (apply existsb_exists; exists t; split; [exact J|now rewrite P]). congruence.
Qed.

Lemma inv_steps : forall l ids c c', inv ids c -> steps c l = Some c' -> exists ids', inv ids' c'.
Proof.
  intro l. induction l as [|a l IH]; cbn; intros ids c c' I E.
  - injection E as <-. now exists ids.
  - destruct (step c a) as [d|] eqn:H; [|discriminate]. destruct (inv_step ids c a d I H) as [ids' I'].
    exact (IH ids' d c' I' E).
Qed.
