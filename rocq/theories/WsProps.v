(* C68: what the router writes on a WebSocket connection *)
From Coq Require Import String List Bool Arith NArith Lia.
From Verif Require Import WsModel WsSpec WsMain WsCancel WsCases.
Import ListNotations.
Open Scope string_scope.
Open Scope list_scope.

(* Nothing about an operation before the connection is acknowledged *)
Theorem C68_ack_first : forall l c, steps start l = Some c ->
  before (fun e => e = EOut None MAck)
         (fun e => exists w m i, e = EOut w m /\ about i m) (c_log c).
Proof. intros l c E. exact (g_ack _ (reached_good l c E)). Qed.
Print Assumptions C68_ack_first.

Theorem C68_ack_once : forall l c l1 w l2, steps start l = Some c ->
  c_log c = l1 ++ EOut w MAck :: l2 -> w = None /\ forall w', ~ In (EOut w' MAck) l2.
Proof. intros l c l1 w l2 E. exact (g_once _ (reached_good l c E) l1 w l2). Qed.
Print Assumptions C68_ack_once.

(* Nothing about an operation that was not asked for *)
Theorem C68_asked : forall l c i, steps start l = Some c ->
  before (fun e => e = asks i) (fun e => exists w m, e = EOut w m /\ about i m) (c_log c).
Proof. intros l c i E. exact (g_ask _ (reached_good l c E) i). Qed.
Print Assumptions C68_asked.

(* All that an operation writes, at any time *)
Theorem C68_words : forall l c n, steps start l = Some c ->
  (exists i, In (asks i) (c_log c) /\ shape i (heard n (c_log c)) (said n (c_log c)))
  \/ (said n (c_log c) = [] /\ heard n (c_log c) = []).
Proof. exact shape_reached. Qed.
Print Assumptions C68_words.

(* While a stream runs, the client has exactly its events, in order. *)
Theorem C68_passes : forall l c n i, steps start l = Some c ->
  In (mktask n i Looping) (c_tasks c) ->
  said n (c_log c) = map (answer i) (heard n (c_log c)).
Proof. exact stream_passes. Qed.
Print Assumptions C68_passes.

(* Every operation that is over was answered, cancelled, or closed the
   connection. *)
Theorem C68_ends : forall l c n, steps start l = Some c ->
  n < c_next c -> ~ In n (map t_inst (c_tasks c)) ->
  exists i, In (asks i) (c_log c) /\ finished n i (c_log c).
Proof. exact ended_reached. Qed.
Print Assumptions C68_ends.

(* The protocol is kept unless a stream reports errors. *)
Theorem C68_protocol_partial : forall l c n, steps start l = Some c ->
  (forall e, ~ In (EIn (AEvent n (EError e))) (c_log c)) ->
  (forall b, In b (heard n (c_log c)) -> b <> None) ->
  (forall code why, ~ In (MClose code why) (said n (c_log c))) ->
  exists i, allowed i (said n (c_log c)).
Proof. exact protocol. Qed.
Print Assumptions C68_protocol_partial.

Theorem C68_protocol_refuted : exists c, steps start failing = Some c
  /\ said 0 (c_log c) = [MError "1" "e"; MComplete "1"]
  /\ forall i, ~ allowed i (said 0 (c_log c)).
Proof.
  exists (reached failing). split; [vm_compute; reflexivity|].
  assert (E : said 0 (c_log (reached failing)) = [MError "1" "e"; MComplete "1"]) by (vm_compute; reflexivity).
  split; [exact E|]. intro i. rewrite E. apply not_allowed.
Qed.
Print Assumptions C68_protocol_refuted.

(* A stream stops exactly when the client completes it or leaves, if no id is
   used twice. *)
Theorem C68_cancel_partial : forall l c n i, steps start l = Some c ->
  NoDup (asked (c_log c)) -> In (mktask n i Looping) (c_tasks c) ->
  (step c (ACancel n) <> None <-> cancel_asked n i (c_log c)).
Proof. exact cancel_iff. Qed.
Print Assumptions C68_cancel_partial.

(* When the connection is down every stream can stop, whatever the ids. *)
Theorem C68_down : forall l c n i, steps start l = Some c -> c_down c = true ->
  In (mktask n i Looping) (c_tasks c) -> step c (ACancel n) <> None.
Proof. exact down_cancel. Qed.
Print Assumptions C68_down.

(* An id that is used again after it was completed: the end of the first
   stream takes the second along, and the client is told nothing. *)
Theorem C68_reuse_refuted : exists c c', steps start reused = Some c
  /\ In (mktask 1 "1" Looping) (c_tasks c)
  /\ ~ cancel_asked 1 "1" (c_log c)
  /\ steps c [ACancel 1; ADrop 1] = Some c'
  /\ c_tasks c' = [] /\ said 1 (c_log c') = [].
Proof.
  exists (reached reused), (reached (reused ++ [ACancel 1; ADrop 1])).
  split; [vm_compute; reflexivity|]. split; [vm_compute; now left|]. split.
  - intro K. apply finds_ok in K. vm_compute in K. discriminate.
  - split; [vm_compute; reflexivity|]. split; vm_compute; reflexivity.
Qed.
Print Assumptions C68_reuse_refuted.

(* A completion that comes while the operation is still being prepared is
   lost. *)
Theorem C68_early_refuted : exists c, steps start early = Some c
  /\ In (mktask 0 "1" Looping) (c_tasks c)
  /\ In (completes "1") (c_log c)
  /\ step c (ACancel 0) = None
  /\ forall b, exists c', step c (AEvent 0 (ERaw (Some b))) = Some c' /\ said 0 (c_log c') = [MNext "1" b].
Proof.
  exists (reached early). split; [vm_compute; reflexivity|]. split; [vm_compute; now left|].
  split; [vm_compute; do 3 right; now left|]. split; [vm_compute; reflexivity|].
  intro b. eexists. split; reflexivity.
Qed.
Print Assumptions C68_early_refuted.

(* What is not allowed is refused with the code of the protocol. *)
Theorem C68_not_ready : forall c i, c_down c = false -> c_acked c = false ->
  refuses c (FText true (Some (CSubscribe i))) (MClose 4401%N "Unauthorized")
  /\ refuses c (FText true (Some (CComplete i))) (MClose 4401%N "Unauthorized").
Proof. exact not_ready. Qed.
Print Assumptions C68_not_ready.

Theorem C68_second_init : forall l c, steps start l = Some c -> c_down c = false ->
  In (EIn (says CInit)) (c_log c) ->
  refuses c (FText true (Some CInit)) (MClose 4429%N "Too many initialisation requests").
Proof. exact second_init. Qed.
Print Assumptions C68_second_init.

Theorem C68_taken_partial : forall l c n i, steps start l = Some c -> c_down c = false ->
  NoDup (asked (c_log c)) -> In (mktask n i Looping) (c_tasks c) ->
  ~ cancel_asked n i (c_log c) ->
  refuses c (FText true (Some (CSubscribe i)))
          (MClose 4409%N ("Subscriber for " ++ i ++ " already exists")%string).
Proof. exact stream_taken. Qed.
Print Assumptions C68_taken_partial.

(* The id of an operation that has no stream yet is not refused: both go on,
   and the second stops the first. *)
Theorem C68_taken_refuted : exists c, steps start twice = Some c
  /\ (forall w code why, ~ In (EOut w (MClose code why)) (c_log c))
  /\ In (mktask 0 "1" Looping) (c_tasks c) /\ In (mktask 1 "1" Looping) (c_tasks c)
  /\ ~ cancel_asked 0 "1" (c_log c) /\ step c (ACancel 0) <> None.
Proof.
  exists (reached twice). split; [vm_compute; reflexivity|]. split.
  - intros w code why J. vm_compute in J.
    destruct J as [J|[J|[J|[J|[J|[J|[]]]]]]]; discriminate J.
  - split; [vm_compute; now left|]. split; [vm_compute; right; now left|]. split.
    + intro K. apply finds_ok in K. vm_compute in K. discriminate.
    + vm_compute. discriminate.
Qed.
Print Assumptions C68_taken_refuted.

Theorem C68_bad_frames : forall c, c_down c = false ->
  refuses c (FText true None) (MClose 4400%N "Invalid message received from client")
  /\ (forall m, refuses c (FText false m) (MClose 4500%N "Supergraph runtime error"))
  /\ refuses c FBinary (MClose 1003%N "Unsupported message type")
  /\ refuses c FBadUtf8 (MClose 1003%N "Invalid UTF-8 in message")
  /\ (forall d, refuses c (FPing d) (MWsPong d))
  /\ refuses c (FText true (Some CPing)) MPong.
Proof. exact bad_frames. Qed.
Print Assumptions C68_bad_frames.

(* Two operations at once: a query and a subscription that the client
   completes, their messages interleaved *)
Example C68_example : exists c,
  steps start [says CInit; says (CSubscribe "q"); says (CSubscribe "s");
               AOutcome 1 OStream; AEvent 1 (ERaw (Some "1")); AOutcome 0 (OSingle (Some "r"));
               AEvent 1 ELagged; AEvent 1 (ERaw (Some "3")); AReply 0; says (CComplete "s");
               ACancel 1; ADrop 1; AShutdown] = Some c
  /\ flat_map (fun e => match e with EOut _ m => [m] | _ => [] end) (c_log c)
     = [MAck; MNext "s" "1"; MNext "q" "r"; MNext "s" "3"; MComplete "q"].
Proof. eexists. split; vm_compute; reflexivity. Qed.

(* An example for the refusals *)
Example C68_example_refused :
  flat_map (fun e => match e with EOut _ m => [m] | _ => [] end)
    (c_log (reached [says (CSubscribe "a"); ATimeout; says CInit; says CInit; says (CSubscribe "a");
                     AOutcome 0 OStream; says (CSubscribe "a"); AEvent 0 EClosed; ALast 0; ADrop 0]))
  = [MClose 4401%N "Unauthorized"; MClose 4408%N "Connection initialisation timeout"; MAck;
     MClose 4429%N "Too many initialisation requests"; MClose 4409%N "Subscriber for a already exists";
     MComplete "a"].
Proof. vm_compute. reflexivity. Qed.
