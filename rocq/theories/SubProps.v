(** C30: slow subscription consumers.  C47: the life of a subscription. *)
From Coq Require Import List Bool Arith.
From Verif Require Import SubModel SubSpec SubProofs.
Import ListNotations.

(** A slow consumer receives a subsequence of the events in order, and the buffer stays bounded. *)
Theorem C30_events_stay_in_order :
  forall A cap u0 tr (u : buffer A), buffered cap = Some u0 -> bexec u0 tr = Some u ->
  subseq (u_got u ++ u_buf u) (produced tr) /\ length (u_buf u) <= cap.
Proof. exact in_order. Qed.
Print Assumptions C30_events_stay_in_order.

(** The subgraph is never blocked: an event is always taken; while the consumer is there the
    subscription stays open, and the event is lost only when the buffer is full. *)
Theorem C30_producer_is_never_blocked :
  forall A (u : buffer A) a, u_tx u = true -> exists u', bstep u (BItem a) = Some u' /\
  (u_rx u = true -> u_tx u' = true /\ u_rx u' = true /\ u_end u' = u_end u /\ u_got u' = u_got u /\
    (u_buf u' = u_buf u ++ [a] \/ u_buf u' = u_buf u /\ u_cap u <= length (u_buf u))).
Proof. exact never_blocks. Qed.
Print Assumptions C30_producer_is_never_blocked.

(** A consumer that keeps up gets everything. *)
Theorem C30_keeping_up_loses_nothing :
  forall A cap u0 tr (u : buffer A), buffered cap = Some u0 -> bexec u0 tr = Some u -> u_rx u = true -> keeps_up cap tr ->
  u_got u ++ u_buf u = produced tr /\ (u_end u = true -> u_got u = produced tr).
Proof. exact loses_nothing. Qed.
Print Assumptions C30_keeping_up_loses_nothing.

(** The consumer sees the end only when the source has ended and the buffer is read. *)
Theorem C30_end_means_end :
  forall A cap u0 tr (u : buffer A), buffered cap = Some u0 -> bexec u0 tr = Some u -> u_rx u = true -> u_end u = true ->
  In BEnd tr /\ u_buf u = [].
Proof. exact ends_with_source. Qed.
Print Assumptions C30_end_means_end.

(** When the consumer is gone the drainer stops at once, event or not. *)
Theorem C30_gone_consumer_stops_the_source :
  forall A (u : buffer A), u_tx u = true -> u_rx u = false ->
  (forall a, bstep u (BItem a) = Some (stop u)) /\ bstep u BClosed = Some (stop u).
Proof. exact gone_consumer. Qed.
Print Assumptions C30_gone_consumer_stops_the_source.

(** Every client of a subscription reads the events in order from where it started, with gaps of
    exactly the sizes reported as lag. *)
Theorem C30_clients_read_in_order :
  forall A cap shared tr (s : sub A) n pos log, sexec (started cap shared) tr = Some s ->
  find_client n (b_clients s) = Some (Reading pos log) ->
  pos <= length (b_sent s) /\ exists start, read_from cap shared tr n start /\ reads (b_sent s) start log pos.
Proof. exact clients_read. Qed.
Print Assumptions C30_clients_read_in_order.

(** Such a log is a subsequence of the events; events read and missed add up; without a gap it is
    all of them. *)
Theorem C30_logs_account_for_every_event :
  forall A (sent : list A) pos log p, reads sent pos log p ->
  subseq (items log) (skipn pos sent) /\ pos + length (items log) + missed log = p /\
  (missed log = 0 -> items log = firstn (p - pos) (skipn pos sent)).
Proof. intros A sent pos log p H. exact (conj (reads_subseq A _ _ _ _ H) (conj (reads_account A _ _ _ _ H) (reads_all A _ _ _ _ H))). Qed.
Print Assumptions C30_logs_account_for_every_event.

(** Lag happens only to a client more than a buffer behind, and leaves it a full buffer to read; the
    end is reported only to a client that has read everything. *)
Theorem C30_lag_only_when_behind :
  forall A cap (sent : list A) op pos,
  (forall n p', recv cap sent op pos = Some (RLagged n, p') -> cap < length sent - pos /\ p' = pos + n /\ length sent = p' + cap) /\
  (forall p', recv cap sent op pos = Some (RClosed, p') -> op = false /\ length sent <= pos).
Proof. intros A cap sent op pos. exact (conj (lag_is_real A cap sent op pos) (closed_at_end A cap sent op pos)). Qed.
Print Assumptions C30_lag_only_when_behind.

(** Finding: the failure of a subscription is an event like others; when the buffer is full it is
    dropped and the consumer sees a regular end. *)
Theorem C30_failures_are_reported_refuted :
  exists u0 tr (u : buffer (nat + nat)), buffered 1 = Some u0 /\ bexec u0 tr = Some u /\
  In (inr 13) (produced tr) /\ u_rx u = true /\ u_end u = true /\ u_got u = [inl 1].
Proof. exact failure_dropped. Qed.
Print Assumptions C30_failures_are_reported_refuted.

(** Finding: a configured capacity of 0 (accepted by the configuration) is a panic. *)
Theorem C30_every_capacity_works_refuted : exists cap, buffered (A := nat) cap = None.
Proof. exact (ex_intro _ 0 eq_refl). Qed.
Print Assumptions C30_every_capacity_works_refuted.

(** A subscription that is not shared: its client misses nothing but reported lag, from the first
    event on. *)
Theorem C47_client_reads_from_the_first_event :
  forall A cap tr (s : sub A) n pos log, sexec (started cap false) tr = Some s ->
  find_client n (b_clients s) = Some (Reading pos log) ->
  reads (b_sent s) 0 log pos /\ (missed log = 0 -> items log = firstn pos (b_sent s)).
Proof. exact leader_reads_all. Qed.
Print Assumptions C47_client_reads_from_the_first_event.

(** A subscription that is not shared ends with the first event after its client has left. *)
Theorem C47_deserted_subscription_ends :
  forall A cap tr (s : sub A) a, sexec (started cap false) tr = Some s -> deserted s -> b_pump s = true ->
  sstep s (SItem a) = Some (pump_ends s).
Proof. exact unshared_stops. Qed.
Print Assumptions C47_deserted_subscription_ends.

(** Finding: a shared subscription never ends by itself: the response kept in the in-flight map holds
    a receiver, so sending never fails. *)
Theorem C47_shared_subscriptions_run_on :
  forall A cap tr (s : sub A), sexec (started cap true) tr = Some s -> ~ In SEnd tr -> b_pump s = true.
Proof. exact shared_never_stops. Qed.
Print Assumptions C47_shared_subscriptions_run_on.
Theorem C47_deserted_shared_subscription_ends_refuted :
  exists s, sexec (A := nat) (started 16 true) [SRead 0; SItem 1; SRecv 0; SLeave 0] = Some s /\ deserted s /\
  forall l, exists s', sexec s (map SItem l) = Some s' /\ b_pump s' = true /\ b_sent s' = b_sent s ++ l.
Proof. exact shared_leak. Qed.
Print Assumptions C47_deserted_shared_subscription_ends_refuted.

(** Finding: the leader of a shared subscription gets a copy without the receiver made for it, and
    misses the events sent before it starts reading. *)
Theorem C47_shared_leader_reads_from_the_first_event_refuted :
  exists s, sexec (A := nat) (started 16 true) [SItem 1; SRead 0; SItem 2; SRecv 0] = Some s /\
  find_client 0 (b_clients s) = Some (Reading 2 [RItem 2]) /\ b_sent s = [1; 2].
Proof. exact shared_leader_misses. Qed.
Print Assumptions C47_shared_leader_reads_from_the_first_event_refuted.

Example C30_ex_drop :
  exists u0 u, buffered (A := nat) 2 = Some u0 /\ bexec u0 [BItem 1; BItem 2; BItem 3; BRecv; BItem 4; BEnd; BRecv; BRecv; BRecv] = Some u /\
  u_got u = [1; 2; 4] /\ u_end u = true.
Proof. eexists. eexists. split; [reflexivity|]. split; [vm_compute; reflexivity|]. vm_compute. auto. Qed.
Example C30_ex_keeps_up : keeps_up 1 [BItem 1; BRecv; BItem 2; BRecv].
Proof.
  intros pre a post H. destruct pre as [|e1 [|e2 [|e3 [|e4 pre]]]]; try discriminate H; injection H; intros; subst; vm_compute; auto.
  destruct pre; discriminate.
Qed.
Example C30_ex_lag : recv 2 [1; 2; 3; 4; 5] true 1 = Some (RLagged 2, 3) /\ recv 2 [1; 2; 3; 4; 5] true 3 = Some (RItem 4, 4).
Proof. split; reflexivity. Qed.
Example C47_ex_share :
  exists s, sexec (A := nat) (started 4 true) [SRead 0; SItem 1; SJoin 1; SRead 1; SItem 2; SRecv 0; SRecv 0; SRecv 1; SEnd; SRecv 1] = Some s /\
  find_client 0 (b_clients s) = Some (Reading 2 [RItem 1; RItem 2]) /\ find_client 1 (b_clients s) = Some Left.
Proof. eexists. split; [vm_compute; reflexivity|]. split; vm_compute; reflexivity. Qed.
Example C47_ex_unshared :
  exists s, sexec (A := nat) (started 4 false) [SItem 1; SRead 0; SRecv 0; SLeave 0; SItem 2] = Some s /\ b_pump s = false /\ b_sent s = [1].
Proof. eexists. split; [vm_compute; reflexivity|]. split; vm_compute; reflexivity. Qed.
