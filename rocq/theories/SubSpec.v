(** What subscription channels must guarantee. *)
From Coq Require Import List Bool Arith.
From Verif Require Import SubModel.
Import ListNotations.

(** [l] is [m] with some items left out. *)
Inductive subseq {A} : list A -> list A -> Prop :=
| sub_nil : subseq [] []
| sub_keep a l m : subseq l m -> subseq (a :: l) (a :: m)
| sub_skip a l m : subseq l m -> subseq l (a :: m).

(** The items a source produced in a trace. *)
Definition produced {A} (tr : list (bevent A)) : list A := flat_map (fun e => match e with BItem a => [a] | _ => [] end) tr.
Definition receives {A} (tr : list (bevent A)) : nat := length (filter (fun e => match e with BRecv => true | _ => false end) tr).
(** The consumer is never as far behind as the buffer is long when an item comes. *)
Definition keeps_up {A} (cap : nat) (tr : list (bevent A)) : Prop :=
  forall pre a post, tr = pre ++ BItem a :: post -> length (produced pre) < cap + receives pre.

(** A log read from the stream of events [sent] starting at number [pos]: items in order, and gaps of
    exactly the reported size; [pos'] is the number of the next event. *)
Inductive reads {A} (sent : list A) : nat -> list (recvd A) -> nat -> Prop :=
| reads_nil pos : reads sent pos [] pos
| reads_item pos a log pos' : nth_error sent pos = Some a -> reads sent (S pos) log pos' -> reads sent pos (RItem a :: log) pos'
| reads_lag pos n log pos' : 0 < n -> reads sent (pos + n) log pos' -> reads sent pos (RLagged n :: log) pos'.
Definition items {A} (log : list (recvd A)) : list A := flat_map (fun r => match r with RItem a => [a] | _ => [] end) log.
Definition missed {A} (log : list (recvd A)) : nat := fold_right (fun r n => match r with RLagged m => m + n | _ => n end) 0 log.
(** Nobody has the subscription any more. *)
Definition deserted {A} (s : sub A) : Prop := forall n c, In (n, c) (b_clients s) -> c = Left.

(** Where a client started to read: at the first event, or for a shared subscription at the events
    sent after it turned to read. *)
Definition start_of {A} (shared : bool) (s0 : sub A) : nat := if shared then length (b_sent s0) else 0.
Definition read_from {A} (cap : nat) (shared : bool) (tr : list (sevent A)) (n start : nat) : Prop :=
  exists pre post s0, tr = pre ++ SRead n :: post /\ sexec (started cap shared) pre = Some s0 /\ start = start_of shared s0.
