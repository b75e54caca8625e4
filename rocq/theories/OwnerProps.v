(** C73: the owner of a pooled connection and its callers. *)
From Coq Require Import String List NArith Bool Arith.
From Verif Require Import OwnerModel OwnerSpec OwnerMain.
Import ListNotations.
Local Open Scope string_scope.
Local Open Scope list_scope.

(** No caller gets two answers, and an answer is never taken back *)
Theorem C73_once : forall capacity idle tr o w a b,
  steps capacity idle (start idle) tr = Some o -> answered o w a -> answered o w b -> a = b.
Proof. exact at_most_once. Qed.
Print Assumptions C73_once.
Theorem C73_kept : forall capacity idle o act o' w a, step capacity idle o act = Some o' -> answered o w a -> answered o' w a.
Proof. exact answers_stay. Qed.
Print Assumptions C73_kept.

(** No caller is lost: each one is answered, or has left, or is on the way *)
Theorem C73_nobody_lost : forall capacity idle tr o w,
  steps capacity idle (start idle) tr = Some o -> (came o w <-> (exists a, answered o w a) \/ left o w \/ underway o w).
Proof. exact nobody_lost. Qed.
Print Assumptions C73_nobody_lost.
Theorem C73_apart : forall capacity idle tr o w,
  steps capacity idle (start idle) tr = Some o -> ~ ((exists a, answered o w a) /\ (left o w \/ underway o w)).
Proof. exact apart. Qed.
Print Assumptions C73_apart.

(** The counter of active operations is exact, and an operation that runs was reported as started *)
Theorem C73_active : forall capacity idle tr o, steps capacity idle (start idle) tr = Some o ->
  active o = length (running o) + completions o /\ NoDup (running o) /\ forall w, In w (running o) -> answered o w Started.
Proof. exact counted. Qed.
Print Assumptions C73_active.

(** A connection is closed for idleness only when nothing runs or is being started, and nothing ended within the idle time *)
Theorem C73_idle : forall capacity idle tr o o', steps capacity idle (start idle) tr = Some o -> step capacity idle o Idle = Some o' ->
  running o = [] /\ current o = None /\ (forall t, ended_at tr t -> (t + idle <= time tr)%N) /\ (idle <= time tr)%N.
Proof. exact idle_only. Qed.
Print Assumptions C73_idle.

(** The channel never holds more than its capacity, permits included *)
Theorem C73_bounded : forall capacity idle tr o, steps capacity idle (start idle) tr = Some o -> length (holding o) + length (queue o) <= capacity.
Proof. exact bounded. Qed.
Print Assumptions C73_bounded.

(** Operations are started in the order in which their commands were committed *)
Theorem C73_order : forall capacity idle tr o, steps capacity idle (start idle) tr = Some o -> subsequence (started o) (commits tr).
Proof. exact in_order. Qed.
Print Assumptions C73_order.

(** After the shutdown no caller gets a permit and no operation is started *)
Theorem C73_shut : forall capacity idle tr o tr' o', steps capacity idle (start idle) tr = Some o -> stage o <> Running ->
  steps capacity idle o tr' = Some o' -> stage o' <> Running /\ (forall w, In w (holding o') -> In w (holding o)) /\ started o' = started o.
Proof. exact shut. Qed.
Print Assumptions C73_shut.

(** Once the loop was left, every caller that did not leave is answered without anything else happening *)
Theorem C73_settled : forall capacity idle tr o e, steps capacity idle (start idle) tr = Some o -> stage o = Draining e ->
  exists tr' o', Forall settles tr' /\ steps capacity idle (start idle) (tr ++ tr') = Some o' /\ stage o' = Ended /\ callers o' = callers o /\
    forall w, came o w -> left o w \/ exists a, answered o' w a.
Proof. exact settled. Qed.
Print Assumptions C73_settled.
(** The owner does not end before every command and every permit was dealt with *)
Theorem C73_over : forall capacity idle tr o w, steps capacity idle (start idle) tr = Some o -> stage o = Ended -> came o w ->
  (exists a, answered o w a) \/ left o w \/ In w (waiting o).
Proof. exact over. Qed.
Print Assumptions C73_over.

(** Dropping the task of the owner answers everyone whose command is in the channel *)
Theorem C73_abort_partial : forall capacity idle tr o o' w, steps capacity idle (start idle) tr = Some o -> step capacity idle o Abort = Some o' ->
  came o w -> (exists a, answered o' w a) \/ left o w \/ In w (waiting o) \/ In w (holding o).
Proof. exact abort_step. Qed.
Print Assumptions C73_abort_partial.
(** Finding: who had a permit at that moment commits its command to a channel nobody reads, and is never answered *)
Theorem C73_abort_refuted : forall idle, exists tr o, steps 1 idle (start idle) tr = Some o /\ came o 0 /\ ~ left o 0 /\
  forall tr' o', steps 1 idle o tr' = Some o' -> ~ exists a, answered o' 0 a.
Proof. exact abort_hangs. Qed.
Print Assumptions C73_abort_refuted.

(** Two callers, one that leaves, an operation that ends, and an idle timer that goes off while a command is being queued *)
Example C73_story :
  match steps 1 30 (start 30) [Submit; Submit; Submit; Reserve; Commit 0; Take; Reserve; Leave 1; Wrote; Wait 40; Reserve; Finish 0; Completed; Wait 29] with
  | Some o => running o = [] /\ active o = 0 /\ holding o = [2] /\ gone o = [1] /\ answers o = [(0, Started)] /\ step 1 30 o Idle = None /\
      match steps 1 30 o [Wait 1; Idle; Submit; Commit 2; Drain; End] with
      | Some o' => stage o' = Ended /\ answers o' = [(2, Failed "connection closed"); (3, Closed); (0, Started)]
      | None => False
      end
  | None => False
  end.
Proof. vm_compute. auto 9. Qed.
Example C73_story_dispatcher :
  match steps 2 30 (start 30) [Submit; Submit; Submit; Reserve; Reserve; Commit 1; Commit 0; Take; Dispatcher "closed by the subgraph"; Drain; Refuse 2; End] with
  | Some o => answers o = [(2, Closed); (0, Failed "closed by the subgraph"); (1, Failed "closed by the subgraph")]
  | None => False
  end.
Proof. vm_compute. reflexivity. Qed.
Example C73_story_errors :
  match steps 2 30 (start 30) [Submit; Submit; Reserve; Reserve; Invalid 1 "variables"; Commit 0; Take; NotWritten "send"; Wait 31; Idle; End; Submit] with
  | Some o => answers o = [(2, Closed); (0, Failed "send"); (1, Failed "variables")]
  | None => step 2 30 (start 30) Dropped = None
  end.
Proof. vm_compute. reflexivity. Qed.
Example C73_story_gone :
  match steps 2 30 (start 30) [Submit; Submit; Submit; Reserve; Reserve; Commit 0; Leave 0; Take; Commit 1; Take; Leave 1; Wrote; Reserve; Commit 2; Take; Leave 2; Abandon; Dropped] with
  | Some o => answers o = [] /\ running o = [] /\ stage o = Draining "dispatcher closed"
  | None => False
  end.
Proof. vm_compute. auto. Qed.
