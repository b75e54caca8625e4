(** Traces that show what sharing does not guarantee. *)
From Coq Require Import List NArith Bool.
From Verif Require Import InflightModel InflightSpec InflightProofs.
Import ListNotations.

Definition late_trace : list (event nat nat) :=
  [EClaim 0 7%N; EStart 0; EEndKeep 0 42; EPublish 0; EStop 0] ++ [EClaim 1 7%N; EJoin 1].
Lemma late_joiner :
  exists tr s, exec (V := nat) (E := nat) init tr = Some s /\
  s_req s 1 = Some (mkreq 7%N (Got 42)) /\
  exists pre post, tr = pre ++ EClaim 1 7%N :: post /\ In (EStop 0) pre /\ In (EEndKeep 0 42) pre /\ ~ In (EEndKeep 1 42) tr.
Proof.
  exists late_trace. eexists. split; [vm_compute; reflexivity|]. split; [vm_compute; reflexivity|].
  exists [EClaim 0 7%N; EStart 0; EEndKeep 0 42; EPublish 0; EStop 0], [EJoin 1].
  split; [reflexivity|]. split; [cbn; intuition|]. split; [cbn; intuition|]. intros H. cbn in H. intuition discriminate.
Qed.
Definition flights_trace : list (event nat nat) :=
  [EClaim 0 7%N; EStart 0; EClaim 1 7%N; EEnd 0 (inr 1); EPublish 0; EStart 1; EClaim 2 7%N; EStart 2; EEnd 1 (inl 5); EClaim 3 7%N; EStart 3].
Lemma two_flights :
  exists tr s, exec (V := nat) (E := nat) init tr = Some s /\
  exists c1 c2, c1 <> c2 /\ s_req s 2 = Some (mkreq 7%N (Running c1)) /\ s_req s 3 = Some (mkreq 7%N (Running c2)) /\
  ~ (exists r, In (ECancel r) tr) /\ ~ (exists v, In (EEnd 2 v) tr).
Proof.
  exists flights_trace. eexists. split; [vm_compute; reflexivity|]. exists 1, 2. split; [discriminate|].
  split; [vm_compute; reflexivity|]. split; [vm_compute; reflexivity|].
  split; intros [x H]; cbn in H; intuition discriminate.
Qed.
