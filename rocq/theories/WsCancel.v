(* When a stream is told to stop *)
From Coq Require Import String List Bool Arith NArith Lia.
From Verif Require Import WsModel WsSpec WsBase WsProofs WsSteps WsMain.
Import ListNotations.
Open Scope list_scope.

Definition harmless (n : nat) (i : string) (a : act) : Prop :=
  a <> AOutcome n OStream /\ EIn a <> completes i /\ a <> AShutdown.

Lemma asked_grow : forall n i log a w ms, harmless n i a ->
  (cancel_asked n i (log ++ EIn a :: map (EOut w) ms) <-> cancel_asked n i log).
Proof.
  intros n i log a w ms (A & B & C). split.
  - intros (l1 & l2 & E & K).
    assert (Z : ~ In (EIn (AOutcome n OStream)) (EIn a :: map (EOut w) ms)).
    { intros [H|H]; [injection H as H; contradiction|]. apply in_map_iff in H as (m & H & _). discriminate. }
    assert (Q : exists q, l2 = q ++ EIn a :: map (EOut w) ms /\ log = l1 ++ EIn (AOutcome n OStream) :: q).
    { apply app_eq_app in E as (q & [[E1 E2]|[E1 E2]]).
      - destruct q as [|h q].
        + exfalso. cbn in E2. apply Z. rewrite <- E2. now left.
        + cbn in E2. injection E2 as <- ->. exists q. split; [reflexivity|exact E1].
      - exfalso. apply Z. rewrite E2. apply in_or_app. right. now left. }
    destruct Q as (q & -> & ->). exists l1, q. split; [reflexivity|].
    destruct K as [K|K]; apply in_app_or in K as [K|[K|K]]; auto; exfalso.
    + now apply B.
    + apply in_map_iff in K as (m & H & _). discriminate.
    + injection K as K. now apply C.
    + apply in_map_iff in K as (m & H & _). discriminate.
  - intros (l1 & l2 & -> & K). exists l1, (l2 ++ EIn a :: map (EOut w) ms).
    split; [now rewrite <- app_assoc|]. destruct K as [K|K]; [left|right]; apply in_or_app; now left.
Qed.

Lemma asked_now : forall n i log e x, In (EIn (AOutcome n OStream)) log ->
  In e x -> (e = completes i \/ e = EIn AShutdown) -> cancel_asked n i (log ++ x).
Proof.
  intros n i log e x J K E. apply in_split in J as (l1 & l2 & ->). exists l1, (l2 ++ x).
  split; [now rewrite <- app_assoc|]. destruct E as [<-|E]; [left|right; rewrite <- E]; apply in_or_app; now right.
Qed.

Lemma asked_fresh : forall n i log x, no_outcome n log ->
  (forall e, In e x -> e <> completes i /\ e <> EIn AShutdown) -> ~ cancel_asked n i (log ++ x).
Proof.
  intros n i log x N X (l1 & l2 & E & K).
  assert (J : forall e, In e l2 -> In e x).
  { apply app_eq_app in E as (q & [[E1 E2]|[E1 E2]]).
    - destruct q as [|h q]; cbn in E2.
      + intros e J. rewrite <- E2. now right.
      + injection E2 as <- ->. exfalso. apply (N OStream). rewrite E1. apply in_or_app. right. now left.
    - intros e J. rewrite E2. apply in_or_app. right. now right. }
  destruct K as [K|K]; destruct (X _ (J _ K)); congruence.
Qed.

(* Streams are signalled when they should be. *)
Definition told (c : conn) : Prop :=
  forall n i, In (mktask n i Looping) (c_tasks c) ->
    (signalled c n i = true <-> cancel_asked n i (c_log c)).

Lemma same_id : forall ids c t u, inv ids c -> NoDup ids ->
  In t (c_tasks c) -> In u (c_tasks c) -> t_id t = t_id u -> t = u.
Proof.
  intros ids c t u I N J K E. apply (one_task (c_tasks c)); try assumption; [exact (i_inst _ _ I)|].
  assert (A := i_ids _ _ I t J). assert (B := i_ids _ _ I u K). rewrite E in A.
  apply (proj1 (NoDup_nth_error ids) N).
  - apply nth_error_Some. now rewrite A.
  - now rewrite A, B.
Qed.

Lemma signalled_held : forall c c' n i, held i (c_subs c') = held i (c_subs c) ->
  signalled c' n i = signalled c n i.
Proof. intros c c' n i E. unfold signalled. now rewrite E. Qed.

Lemma told_step : forall ids c a c', inv ids c -> NoDup (asked (c_log c)) -> told c ->
  step c a = Some c' -> told c'.
Proof.
  intros ids c a c' I Fr T E. assert (N := i_nodup _ _ I Fr).
  destruct (step_log ids c a c' I E) as (w & ms & L & _).
  assert (Kept : forall n i, In (mktask n i Looping) (c_tasks c) -> harmless n i a ->
            held i (c_subs c') = held i (c_subs c) ->
            (signalled c' n i = true <-> cancel_asked n i (c_log c'))).
  { intros n i J H S. rewrite L, (asked_grow n i _ a w ms H), (signalled_held c c' n i S). exact (T n i J). }
  assert (Str : forall n i, In (mktask n i Looping) (c_tasks c) -> In (EIn (AOutcome n OStream)) (c_log c)).
  { intros n i J. destruct (i_task _ _ I _ J) as [_ H]. exact H. }
  assert (Back : forall n p (l : list task) k i, In (mktask k i Looping) (set_phase n p l) -> p <> Looping ->
            In (mktask k i Looping) l).
  { intros n p l k i J P. apply set_in in J as [(u & _ & _ & H)|[J _]]; [|exact J].
    injection H as _ _ H. congruence. }
  destruct a as [f|n o|n|n e|n|n|n| |]; cbn [step] in E.
  - destruct (c_down c) eqn:D; [discriminate|]. injection E as E.
    assert (Tk : forall k i, In (mktask k i Looping) (c_tasks c') -> In (mktask k i Looping) (c_tasks c)).
    { intros k i J. rewrite <- E in J. destruct f as [[|] [m|]| | | | | |]; try exact J.
      destruct m as [| | |j|j]; cbn in J; try exact J.
      - destruct (c_received c); exact J.
      - destruct (negb (c_acked c)); [exact J|]. destruct (held j (c_subs c)); [exact J|].
        cbn in J. apply in_app_or in J as [J|[J|[]]]; [exact J|discriminate].
      - destruct (negb (c_acked c)); exact J. }
    intros k i J. assert (Jc := Tk k i J).
    assert (Ak : c_acked c = true).
    { apply (i_some _ _ I). assert (B := i_lt _ _ I _ Jc). lia. }
    destruct (list_eq_dec (fun x y : entry => ltac:(decide equality; decide equality; try apply Nat.eq_dec;
        decide equality; try apply string_dec; try apply N.eq_dec; try apply bool_dec; decide equality;
        try apply string_dec; decide equality; apply string_dec))
        [EIn (AFrame f)] [completes i]) as [Q|Q].
    + injection Q as ->. cbn -[release hold held] in E. rewrite Ak in E. cbn -[release hold held] in E. split; intro.
      * rewrite L. apply (asked_now k i _ (completes i)); [exact (Str k i Jc)|now left|now left].
      * rewrite <- E. unfold signalled. cbn -[release hold held]. rewrite held_release, String.eqb_refl. reflexivity.
    + apply Kept; [exact Jc| |].
      * split; [discriminate|]. split; [congruence|discriminate].
      * rewrite <- E. destruct f as [[|] [m|]| | | | | |]; try reflexivity.
        destruct m as [| | |j|j]; cbn -[release hold held]; try reflexivity.
        -- now destruct (c_received c).
        -- destruct (negb (c_acked c)); [reflexivity|]. now destruct (held j (c_subs c)).
        -- destruct (negb (c_acked c)); [reflexivity|]. cbn -[release hold held]. rewrite held_release.
           destruct (String.eqb_spec i j) as [->|_]; [|reflexivity]. exfalso. now apply Q.
  - destruct (find_task n (c_tasks c)) as [[m j [| | | |]]|] eqn:F; try discriminate.
    apply find_task_in in F as [_ J]. injection E as E.
    assert (Hl : forall k i, harmless k i (AOutcome n o) \/ (k = n /\ o = OStream)).
    { intros k i. destruct o; try (left; split; [|split]; discriminate).
      destruct (Nat.eq_dec k n) as [->|Dk]; [now right|]. left. split; [congruence|]. split; discriminate. }
    assert (Ne : forall k i, In (mktask k i Looping) (c_tasks c) -> i <> j).
    { intros k i K ->. assert (B := same_id ids c _ _ I N K J eq_refl). discriminate. }
    intros k i K.
    assert (Cases : In (mktask k i Looping) (c_tasks c) /\ (k <> n \/ o <> OStream)
                    \/ (k = n /\ i = j /\ o = OStream)).
    { rewrite <- E in K. destruct o as [e| |e w'|b|]; cbn in K.
      - apply end_in in K as [K _]. left. split; [exact K|right; discriminate].
      - apply end_in in K as [K _]. left. split; [exact K|right; discriminate].
      - left. split; [|right; discriminate]. now apply Back in K.
      - left. split; [|right; discriminate]. now apply Back in K.
      - apply set_in in K as [(u & Ju & Eu & H)|[K Dk]].
        + right. injection H as -> ->. rewrite (one_task _ u (mktask n j Waiting) (i_inst _ _ I) Ju J Eu). auto.
        + left. cbn in Dk. split; [exact K|now left]. }
    destruct Cases as [[K' Dk]|(-> & -> & ->)].
    + apply Kept; [exact K'| |].
      * destruct (Hl k i) as [H|[H1 H2]]; [exact H|]. destruct Dk; contradiction.
      * rewrite <- E. destruct o; try reflexivity. cbn -[release hold held]. rewrite held_hold.
        destruct (String.eqb_spec i j) as [Z|_]; [|reflexivity]. exfalso. exact (Ne k i K' Z).
    + destruct (i_task _ _ I _ J) as (_ & _ & NO). cbn in NO.
      split; intro H; exfalso.
      * rewrite <- E in H. unfold signalled in H. cbn -[release hold held] in H.
        rewrite held_hold, String.eqb_refl, Nat.eqb_refl in H. discriminate.
      * rewrite <- E in H. cbn in H. revert H. apply asked_fresh; [exact NO|].
        intros e [<-|[]]. split; discriminate.
  - destruct (find_task n (c_tasks c)) as [[m j [| | | |]]|] eqn:F; try discriminate.
    injection E as E. intros k i K. apply Kept.
    + rewrite <- E in K. cbn in K. now apply end_in in K as [K _].
    + split; [discriminate|]. split; discriminate.
    + now rewrite <- E.
  - destruct (find_task n (c_tasks c)) as [[m j [| | | |]]|] eqn:F; try discriminate.
    injection E as E. intros k i K. apply Kept.
    + rewrite <- E in K. destruct e; cbn in K; try exact K; now apply Back in K.
    + split; [discriminate|]. split; discriminate.
    + rewrite <- E. now destruct e.
  - destruct (find_task n (c_tasks c)) as [[m j [| | | |]]|] eqn:F; try discriminate.
    destruct (signalled c n j); [|discriminate]. injection E as E. intros k i K. apply Kept.
    + rewrite <- E in K. cbn in K. now apply Back in K.
    + split; [discriminate|]. split; discriminate.
    + now rewrite <- E.
  - destruct (find_task n (c_tasks c)) as [[m j [| | | |]]|] eqn:F; try discriminate.
    injection E as E. intros k i K. apply Kept.
    + rewrite <- E in K. cbn in K. now apply Back in K.
    + split; [discriminate|]. split; discriminate.
    + now rewrite <- E.
  - destruct (find_task n (c_tasks c)) as [[m j [| | | |]]|] eqn:F; try discriminate.
    apply find_task_in in F as [_ J]. injection E as E. intros k i K.
    assert (K' : In (mktask k i Looping) (c_tasks c)).
    { rewrite <- E in K. cbn in K. now apply end_in in K as [K _]. }
    apply Kept; [exact K'| |].
    + split; [discriminate|]. split; discriminate.
    + rewrite <- E. cbn -[release hold held]. rewrite held_release. destruct (String.eqb_spec i j) as [->|_]; [|reflexivity].
      exfalso. assert (B := same_id ids c _ _ I N K' J eq_refl). discriminate.
  - destruct (c_acked c || c_received c); [discriminate|]. injection E as E. intros k i K. apply Kept.
    + rewrite <- E in K. exact K.
    + split; [discriminate|]. split; discriminate.
    + now rewrite <- E.
  - destruct (c_down c || existsb _ (c_tasks c)); [discriminate|]. injection E as E. intros k i K.
    assert (K' : In (mktask k i Looping) (c_tasks c)) by (rewrite <- E in K; exact K).
    split; intro.
    + rewrite L. apply (asked_now k i _ (EIn AShutdown)); [exact (Str k i K')|now left|now right].
    + rewrite <- E. reflexivity.
Qed.

Lemma log_grows : forall l ids c c', inv ids c -> steps c l = Some c' ->
  exists x, c_log c' = c_log c ++ x.
Proof.
  intro l. induction l as [|a l IH]; cbn; intros ids c c' I E.
  - injection E as <-. exists []. now rewrite app_nil_r.
  - destruct (step c a) as [d|] eqn:H; [|discriminate]. destruct (inv_step ids c a d I H) as [ids' I'].
    destruct (step_log ids c a d I H) as (w & ms & L & _). destruct (IH ids' d c' I' E) as [x X].
    exists ((EIn a :: map (EOut w) ms) ++ x). rewrite X, L. now rewrite <- app_assoc.
Qed.

Lemma fresh_prefix : forall (a b : list entry), NoDup (asked (a ++ b)) -> NoDup (asked a).
Proof.
  intros a b. rewrite asked_app. generalize (asked a) (asked b). intros x y N.
  induction x as [|s x IH]; [constructor|]. inversion N as [|? ? K N']. subst. constructor.
  - intro J. apply K. apply in_or_app. now left.
  - now apply IH.
Qed.

Lemma told_steps : forall l ids c c', inv ids c -> told c -> steps c l = Some c' ->
  NoDup (asked (c_log c')) -> told c'.
Proof.
  intro l. induction l as [|a l IH]; cbn; intros ids c c' I T E N.
  - injection E as <-. exact T.
  - destruct (step c a) as [d|] eqn:H; [|discriminate]. destruct (inv_step ids c a d I H) as [ids' I'].
    destruct (log_grows l ids' d c' I' E) as [x X].
    assert (Nd : NoDup (asked (c_log d))) by (rewrite X in N; exact (fresh_prefix _ _ N)).
    destruct (step_log ids c a d I H) as (w & ms & L & _).
    assert (Nc : NoDup (asked (c_log c))) by (rewrite L in Nd; exact (fresh_prefix _ _ Nd)).
    exact (IH ids' d c' I' (told_step ids c a d I Nc T H) E N).
Qed.

Lemma told_start : told start.
Proof. intros n i []. Qed.

Lemma cancel_iff : forall l c n i, steps start l = Some c -> NoDup (asked (c_log c)) ->
  In (mktask n i Looping) (c_tasks c) ->
  (step c (ACancel n) <> None <-> cancel_asked n i (c_log c)).
Proof.
  intros l c n i E N J. destruct (reached_inv l c E) as [ids I].
  assert (T := told_steps l [] start c inv_start told_start E N). rewrite <- (T n i J).
  assert (F := in_find _ _ (i_inst _ _ I) J). cbn in F. cbn [step]. rewrite F.
  destruct (signalled c n i); split; intro H; try reflexivity; try discriminate. now destruct H.
Qed.

(* After the connection is down, every stream can stop. *)
Lemma down_free : forall l ids c c', inv ids c -> (c_down c = true -> c_subs c = []) ->
  steps c l = Some c' -> c_down c' = true -> c_subs c' = [].
Proof.
  intro l. induction l as [|a l IH]; cbn; intros ids c c' I Z E.
  - injection E as <-. exact Z.
  - destruct (step c a) as [d|] eqn:H; [|discriminate]. destruct (inv_step ids c a d I H) as [ids' I'].
    apply (IH ids' d c' I'); [|exact E]. intro D. clear IH E I'.
    destruct a as [f|n o|n|n e|n|n|n| |]; cbn [step] in H.
    + destruct (c_down c) eqn:Dc; [discriminate|]. injection H as <-. exfalso.
      assert (K : c_down (on_frame (notes c (AFrame f)) f) = c_down c).
      { destruct f as [[|] [m|]| | | | | |]; try reflexivity. destruct m as [| | |j|j]; cbn; try reflexivity.
        - now destruct (c_received c).
        - destruct (negb (c_acked c)); [reflexivity|]. now destruct (held j (c_subs c)).
        - now destruct (negb (c_acked c)). }
      congruence.
    + destruct (find_task n (c_tasks c)) as [[m j [| | | |]]|] eqn:F; try discriminate.
      apply find_task_in in F as [_ J]. injection H as <-. exfalso.
      apply (handler_up ids c n j _ I J eq_refl). destruct o; exact D.
    + destruct (find_task n (c_tasks c)) as [[m j [| | | |]]|] eqn:F; try discriminate.
      injection H as <-. exact (Z D).
    + destruct (find_task n (c_tasks c)) as [[m j [| | | |]]|] eqn:F; try discriminate.
      injection H as <-. destruct e; exact (Z D).
    + destruct (find_task n (c_tasks c)) as [[m j [| | | |]]|] eqn:F; try discriminate.
      destruct (signalled c n j); [|discriminate]. injection H as <-. exact (Z D).
    + destruct (find_task n (c_tasks c)) as [[m j [| | | |]]|] eqn:F; try discriminate.
      injection H as <-. exact (Z D).
    + destruct (find_task n (c_tasks c)) as [[m j [| | | |]]|] eqn:F; try discriminate.
      injection H as <-. cbn in D |- *. now rewrite (Z D).
    + destruct (c_acked c || c_received c); [discriminate|]. injection H as <-. exact (Z D).
    + destruct (c_down c || existsb _ (c_tasks c)); [discriminate|]. injection H as <-. reflexivity.
Qed.

Lemma down_cancel : forall l c n i, steps start l = Some c -> c_down c = true ->
  In (mktask n i Looping) (c_tasks c) -> step c (ACancel n) <> None.
Proof.
  intros l c n i E D J. destruct (reached_inv l c E) as [ids I].
  assert (Z := down_free l [] start c inv_start (fun _ => eq_refl) E D).
  assert (F := in_find _ _ (i_inst _ _ I) J). cbn in F. cbn [step]. rewrite F.
  unfold signalled. rewrite Z. discriminate.
Qed.
