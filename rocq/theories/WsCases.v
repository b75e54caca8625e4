(* Particular connections, and the replies to frames *)
From Coq Require Import String List Bool Arith NArith Lia.
From Verif Require Import WsModel WsSpec WsBase WsProofs WsSteps WsMain WsCancel.
Import ListNotations.
Open Scope string_scope.
Open Scope list_scope.

Definition says (m : cmsg) : act := AFrame (FText true (Some m)).

(* The reply to a frame that is refused *)
Definition refuses (c : conn) (f : frame) (m : out) : Prop :=
  exists c', step c (AFrame f) = Some c'
    /\ c_log c' = c_log c ++ [EIn (AFrame f); EOut None m]
    /\ c_tasks c' = c_tasks c /\ c_subs c' = c_subs c /\ c_next c' = c_next c
    /\ c_received c' = c_received c /\ c_acked c' = c_acked c /\ c_down c' = c_down c.

Lemma writes_refuses : forall c f m, c_down c = false ->
  on_frame (notes c (AFrame f)) f = writes (notes c (AFrame f)) None [m] -> refuses c f m.
Proof.
  intros c f m D E. unfold refuses. cbn [step]. rewrite D. exists (on_frame (notes c (AFrame f)) f).
  split; [reflexivity|]. rewrite E. cbn. rewrite <- app_assoc. repeat split. now symmetry.
Qed.

Lemma not_ready : forall c i, c_down c = false -> c_acked c = false ->
  refuses c (FText true (Some (CSubscribe i))) (MClose 4401%N "Unauthorized")
  /\ refuses c (FText true (Some (CComplete i))) (MClose 4401%N "Unauthorized").
Proof.
  intros c i D A. split; apply writes_refuses; try exact D; cbn; now rewrite A.
Qed.

Lemma second_init : forall l c, steps start l = Some c -> c_down c = false ->
  In (EIn (says CInit)) (c_log c) ->
  refuses c (FText true (Some CInit)) (MClose 4429%N "Too many initialisation requests").
Proof.
  intros l c E D J. apply writes_refuses; [exact D|]. cbn.
  enough (R : c_received c = true) by now rewrite R.
  (* an init message sets the flag, which is never unset *)
  assert (G : forall l c c', (In (EIn (says CInit)) (c_log c) -> c_received c = true) ->
              (exists ids, inv ids c) ->
              steps c l = Some c' -> In (EIn (says CInit)) (c_log c') -> c_received c' = true).
  { clear. intro l. induction l as [|a l IH]; cbn; intros c c' K (ids & I) E.
    - injection E as <-. exact K.
    - destruct (step c a) as [d|] eqn:H; [|discriminate].
      apply (IH d c'); [|exact (inv_step ids c a d I H)|exact E].
      destruct (step_log ids c a d I H) as (w & ms & L & _ & B & C).
      rewrite L. intro J. apply in_app_or in J as [J|[J|J]].
      + destruct C as [C|C]; [now apply B|]. rewrite C. exact (K J).
      + injection J as ->. unfold says in H. cbn [step] in H. destruct (c_down c); [discriminate|].
        injection H as <-. cbn. destruct (c_received c) eqn:R; [exact R|reflexivity].
      + apply in_map_iff in J as (m & J & _). discriminate. }
  apply (G l start c); try assumption; [intros []|]. exists []. exact inv_start.
Qed.

Lemma taken : forall c i n, c_down c = false -> c_acked c = true -> held i (c_subs c) = Some n ->
  refuses c (FText true (Some (CSubscribe i)))
          (MClose 4409%N ("Subscriber for " ++ i ++ " already exists")%string).
Proof.
  intros c i n D A H. apply writes_refuses; [exact D|]. cbn. rewrite A. cbn. now rewrite H.
Qed.

(* A second subscribe with the id of a stream that nobody told to stop *)
Lemma stream_taken : forall l c n i, steps start l = Some c -> c_down c = false ->
  NoDup (asked (c_log c)) -> In (mktask n i Looping) (c_tasks c) ->
  ~ cancel_asked n i (c_log c) ->
  refuses c (FText true (Some (CSubscribe i)))
          (MClose 4409%N ("Subscriber for " ++ i ++ " already exists")%string).
Proof.
  intros l c n i E D N J C. destruct (reached_inv l c E) as [ids I].
  assert (T := told_steps l [] start c inv_start told_start E N n i J).
  assert (A : c_acked c = true) by (apply (i_some _ _ I); assert (B := i_lt _ _ I _ J); lia).
  apply (taken c i n D A). destruct (signalled c n i) eqn:Z.
  - exfalso. apply C. now apply T.
  - unfold signalled in Z. destruct (held i (c_subs c)) as [k|]; [|discriminate].
    destruct (Nat.eqb_spec k n) as [Ek|]; [now rewrite Ek|discriminate].
Qed.

Lemma bad_frames : forall c, c_down c = false ->
  refuses c (FText true None) (MClose 4400%N "Invalid message received from client")
  /\ (forall m, refuses c (FText false m) (MClose 4500%N "Supergraph runtime error"))
  /\ refuses c FBinary (MClose 1003%N "Unsupported message type")
  /\ refuses c FBadUtf8 (MClose 1003%N "Invalid UTF-8 in message")
  /\ (forall d, refuses c (FPing d) (MWsPong d))
  /\ refuses c (FText true (Some CPing)) MPong.
Proof.
  intros c D. split; [|split; [|split; [|split; [|split]]]]; intros; apply writes_refuses; try exact D; reflexivity.
Qed.

Lemma not_allowed : forall i j k e, ~ allowed i [MError j e; MComplete k].
Proof.
  intros i j k e A. inversion A as [bs H|bs H|bs e' H].
  - destruct bs; discriminate.
  - destruct bs as [|b bs]; discriminate.
  - destruct bs as [|b bs]; discriminate.
Qed.

Definition failing : list act :=
  [says CInit; says (CSubscribe "1"); AOutcome 0 OStream; AEvent 0 (EError "e"); ALast 0].

Definition reused : list act :=
  [says CInit; says (CSubscribe "1"); AOutcome 0 OStream; says (CComplete "1");
   says (CSubscribe "1"); AOutcome 1 OStream; ACancel 0; ADrop 0].

Definition early : list act :=
  [says CInit; says (CSubscribe "1"); says (CComplete "1"); AOutcome 0 OStream].

Definition twice : list act :=
  [says CInit; says (CSubscribe "1"); says (CSubscribe "1"); AOutcome 0 OStream; AOutcome 1 OStream].

Definition reached (l : list act) : conn :=
  match steps start l with Some c => c | None => start end.

(* A check that finds a request to stop *)
Fixpoint finds (n : nat) (i : string) (log : list entry) : bool :=
  match log with
  | [] => false
  | e :: l =>
      match e with EIn (AOutcome k OStream) => Nat.eqb k n | _ => false end
      && existsb (fun x => match x with
                           | EIn (AFrame (FText true (Some (CComplete j)))) => String.eqb j i
                           | EIn AShutdown => true
                           | _ => false
                           end) l
      || finds n i l
  end.

Lemma finds_ok : forall n i log, cancel_asked n i log -> finds n i log = true.
Proof.
  intros n i log (l1 & l2 & -> & K). induction l1 as [|e l1 IH]; cbn.
  - rewrite Nat.eqb_refl. apply orb_true_iff. left. cbn. apply existsb_exists.
    destruct K as [K|K]; eexists; (split; [exact K|]); [apply String.eqb_refl|reflexivity].
  - rewrite IH. apply orb_true_r.
Qed.
