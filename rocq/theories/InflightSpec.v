(** What sharing requests in flight must guarantee, over all interleavings. *)
From Coq Require Import List NArith.
From Verif Require Import InflightModel.
Import ListNotations.

Section S.
  Variables V E : Type.
  Notation event := (event V E).
  Definition reachable (s : state V E) : Prop := exists tr, exec init tr = Some s.
  (** The guard of this request's call is gone by now: the call counts as completed. *)
  Definition completed (l : nat) (tr : list event) : Prop := (exists res, In (EEnd l res) tr) \/ In (EDrop l) tr.
  (** The call of [l] yielded [v]. *)
  Definition yielded (l : nat) (v : V) (tr : list event) : Prop := In (EEnd l (inl v)) tr \/ In (EEndKeep l v) tr.
  (** [r] arrived when the call of [l] had not been completed. *)
  Definition in_time (r l : nat) (tr : list event) : Prop :=
    forall pre k post, tr = pre ++ EClaim r k :: post -> ~ completed l pre.
  (** The request can take a step of its own. *)
  Definition can_go (s : state V E) (r : nat) : Prop := step s (EStart r) <> None \/ step s (EJoin r) <> None.
End S.
Arguments reachable {V E}. Arguments completed {V E}. Arguments yielded {V E}. Arguments in_time {V E}. Arguments can_go {V E}.
