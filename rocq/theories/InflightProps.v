(** C13: sharing requests in flight never serves stale or foreign results. *)
From Coq Require Import List NArith Bool.
From Verif Require Import InflightModel InflightSpec InflightProofs InflightEx.
Import ListNotations.

(** Whatever the interleaving: a request that got a value got it from a call for the same key (its
    own or another's) that was not completed when the request arrived. *)
Theorem C13_results_are_fresh_and_own :
  forall (V E : Type) tr (s : state V E) r k v, exec init tr = Some s -> s_req s r = Some (mkreq k (Got v)) ->
  exists l, In (EClaim l k) tr /\ yielded l v tr /\ in_time r l tr.
Proof. exact shared_in_time. Qed.
Print Assumptions C13_results_are_fresh_and_own.

(** For queries (no stream outlives its call) the value was produced after the request arrived. *)
Theorem C13_queries_get_later_results :
  forall (V E : Type) tr (s : state V E) r k v, exec init tr = Some s -> s_req s r = Some (mkreq k (Got v)) ->
  (forall l v, ~ In (EEndKeep l v) tr) ->
  exists l pre post, tr = pre ++ EClaim r k :: post /\ In (EClaim l k) tr /\ In (EEnd l (inl v)) post.
Proof. exact plain_in_time. Qed.
Print Assumptions C13_queries_get_later_results.

(** Failures are not shared: a request only fails with the failure of its own call. *)
Theorem C13_failures_are_own :
  forall (V E : Type) tr (s : state V E) r k e, exec init tr = Some s -> s_req s r = Some (mkreq k (Failed e)) ->
  In (EEnd r (inr e)) tr.
Proof. exact own_failure. Qed.
Print Assumptions C13_failures_are_own.

(** A cell is filled by one call at a time. *)
Theorem C13_one_call_per_cell :
  forall (V E : Type) tr (s : state V E) c l k l' k', exec init tr = Some s -> s_req s l = Some (mkreq k (Running c)) ->
  s_req s l' = Some (mkreq k' (Running c)) -> l = l'.
Proof. exact one_call. Qed.
Print Assumptions C13_one_call_per_cell.

(** A waiting request is never stuck: it can go on by itself, or a live call holds its cell, and
    neither the end of that call, good or bad, nor its cancellation leaves the request behind. *)
Theorem C13_followers_are_never_stuck :
  forall (V E : Type) tr (s : state V E) r k c, exec init tr = Some s -> s_req s r = Some (mkreq k (Waiting c)) ->
  can_go s r \/
  exists l q, s_req s l = Some q /\
    ((q_phase q = Running c /\ (forall res, step s (EEnd l res) <> None) /\
      forall s', step s (ECancel l) = Some s' -> can_go s' r) \/
     (exists res, q_phase q = Ended c res /\ exists s', step s (EPublish l) = Some s' /\ can_go s' r)).
Proof. exact never_stuck. Qed.
Print Assumptions C13_followers_are_never_stuck.

(** Finding: a stream that is over can still be joined, in the moment between the end of its loop
    and the drop of its handle (pipeline/mod.rs:656-684). *)
Theorem C13_streams_in_time_refuted :
  exists tr s, exec (V := nat) (E := nat) init tr = Some s /\
  s_req s 1 = Some (mkreq 7%N (Got 42)) /\
  exists pre post, tr = pre ++ EClaim 1 7%N :: post /\ In (EStop 0) pre /\ In (EEndKeep 0 42) pre /\ ~ In (EEndKeep 1 42) tr.
Proof. exact late_joiner. Qed.
Print Assumptions C13_streams_in_time_refuted.

(** Finding: after a failure the next waiting request calls without an entry in the map, and its
    guard removes the entry of another call: three calls of one key can be in flight. *)
Theorem C13_single_flight_refuted :
  exists tr s, exec (V := nat) (E := nat) init tr = Some s /\
  exists c1 c2, c1 <> c2 /\ s_req s 2 = Some (mkreq 7%N (Running c1)) /\ s_req s 3 = Some (mkreq 7%N (Running c2)) /\
  ~ (exists r, In (ECancel r) tr) /\ ~ (exists v, In (EEnd 2 v) tr).
Proof. exact two_flights. Qed.
Print Assumptions C13_single_flight_refuted.

(** A leader, a joiner, and a later request that starts over. *)
Example C13_ex_share :
  exists s, exec (V := nat) (E := nat) init
    [EClaim 0 7%N; EStart 0; EClaim 1 7%N; EEnd 0 (inl 42); EClaim 2 7%N; EPublish 0; EJoin 1; EStart 2; EEnd 2 (inl 43); EPublish 2] = Some s /\
    s_req s 1 = Some (mkreq 7%N (Got 42)) /\ s_req s 2 = Some (mkreq 7%N (Got 43)).
Proof. eexists. vm_compute. repeat split. Qed.
(** The leader is dropped; the follower takes over. *)
Example C13_ex_cancel :
  exists s, exec (V := nat) (E := nat) init
    [EClaim 0 7%N; EStart 0; EClaim 1 7%N; ECancel 0; EStart 1; EEnd 1 (inl 5); EPublish 1] = Some s /\
    s_req s 1 = Some (mkreq 7%N (Got 5)).
Proof. eexists. vm_compute. repeat split. Qed.
(** While the leader runs, the follower cannot start. *)
Example C13_ex_wait :
  exec (V := nat) (E := nat) init [EClaim 0 7%N; EStart 0; EClaim 1 7%N; EStart 1] = None.
Proof. vm_compute. reflexivity. Qed.
