(** The owner of a pooled WebSocket connection and the callers that hand it operations.
    Models bin/router/src/executor/executors/websocket_pool.rs:393-400,440-497,575-760 with a bounded channel of tokio:
    a caller waits for a permit, in order; with a permit it commits its command; the owner takes commands in order,
    writes them, counts what runs, and shuts down. Callers are numbered in the order in which they come. *)
From Coq Require Import String List NArith Bool Arith.
Import ListNotations.
Local Open Scope string_scope.
Local Open Scope list_scope.

(** What [submit] returns: a started operation, an error, or [WebSocketArbiterChannelClosed] *)
Inductive answer := Started | Failed (e : string) | Closed.
(** [Draining] with the error for commands, [ConnectionShutdown::command_error]; [Aborted] when the task is dropped *)
Inductive phase := Running | Draining (e : string) | Ended | Aborted.
Record owner := mkowner {
  stage : phase;
  waiting : list nat;       (** callers in [reserve] *)
  holding : list nat;       (** callers with a permit *)
  queue : list nat;         (** commands in the channel *)
  current : option nat;     (** the command being written *)
  running : list nat;       (** operations whose streams are drained into their channels *)
  completions : nat;        (** messages in [completed_rx] *)
  active : nat;             (** [active_operations] *)
  clock : N; deadline : N;  (** the idle timer *)
  answers : list (nat * answer);
  gone : list nat;          (** callers that were dropped before an answer *)
  callers : nat }.

Inductive action :=
| Submit | Reserve | Refuse (w : nat) | Commit (w : nat) | Invalid (w : nat) (e : string) | Leave (w : nat)
| Take | Wrote | NotWritten (e : string) | Abandon | Dispatcher (e : string) | Finish (w : nat) | Completed | Idle | Dropped
| Drain | End | Abort | Wait (d : N).

Definition mem (w : nat) (l : list nat) : bool := existsb (Nat.eqb w) l.
Definition del (w : nat) (l : list nat) : list nat := filter (fun x => negb (Nat.eqb w x)) l.
(** An answer to a caller that is gone is lost *)
Definition tell (w : nat) (a : answer) (o : owner) : list (nat * answer) := if mem w (gone o) then answers o else (w, a) :: answers o.
Definition tell_all (l : list nat) (a : answer) (o : owner) : list (nat * answer) := map (fun w => (w, a)) (filter (fun w => negb (mem w (gone o))) l) ++ answers o.
Definition cur (o : owner) : list nat := match current o with Some w => [w] | None => [] end.

Section Owner.
  Variable capacity : nat.
  Variable idle_timeout : N.
  (** lines 612-620: the timer starts with the connection *)
  Definition start : owner := mkowner Running [] [] [] None [] 0 0 0%N idle_timeout [] [] 0.
  Definition step (o : owner) (a : action) : option owner :=
    let '(mkowner st wa ho qu cu ru co ac cl de an go ca) := o in
    match a with
    | Submit =>
        match st with
        | Running => Some (mkowner st (wa ++ [ca]) ho qu cu ru co ac cl de an go (S ca))
        | _ => Some (mkowner st wa ho qu cu ru co ac cl de ((ca, Closed) :: an) go (S ca))
        end
    | Reserve =>
        match st, wa with
        | Running, w :: r => if Nat.ltb (length ho + length qu) capacity then Some (mkowner st r (w :: ho) qu cu ru co ac cl de an go ca) else None
        | _, _ => None
        end
    | Refuse w =>
        match st with
        | Running => None
        | _ => if mem w wa then Some (mkowner st (del w wa) ho qu cu ru co ac cl de ((w, Closed) :: an) go ca) else None
        end
    | Commit w => if mem w ho then Some (mkowner st wa (del w ho) (qu ++ [w]) cu ru co ac cl de an go ca) else None
    | Invalid w e => if mem w ho then Some (mkowner st wa (del w ho) qu cu ru co ac cl de ((w, Failed e) :: an) go ca) else None
    | Leave w =>
        if Nat.ltb w ca && negb (mem w (map fst an)) && negb (mem w go)
        then Some (mkowner st (del w wa) (del w ho) qu cu ru co ac cl de an (w :: go) ca) else None
    | Take =>
        match st, cu, qu with
        | Running, None, w :: r =>
            if mem w go then Some (mkowner st wa ho r None ru co ac cl de an go ca)
            else Some (mkowner st wa ho r (Some w) ru co ac cl (if Nat.eqb ac 0 then cl + idle_timeout else de)%N an go ca)
        | _, _, _ => None
        end
    | Wrote =>
        match cu with
        | Some w => if mem w go then Some (mkowner st wa ho qu None ru co ac cl de an go ca)
                    else Some (mkowner st wa ho qu None (w :: ru) co (S ac) cl de ((w, Started) :: an) go ca)
        | None => None
        end
    | NotWritten e => match cu with Some w => Some (mkowner st wa ho qu None ru co ac cl de (tell w (Failed e) o) go ca) | None => None end
    | Abandon => match cu with Some w => if mem w go then Some (mkowner st wa ho qu None ru co ac cl de an go ca) else None | None => None end
    | Dispatcher e =>
        match st with
        | Running => Some (mkowner (Draining e) wa ho qu None ru co ac cl de (match cu with Some w => tell w (Failed e) o | None => an end) go ca)
        | _ => None
        end
    | Finish w => if mem w ru then Some (mkowner st wa ho qu cu (del w ru) (S co) ac cl de an go ca) else None
    | Completed =>
        match st, cu, co, ac with
        | Running, None, S co', S ac' => Some (mkowner st wa ho qu None ru co' ac' cl (if Nat.eqb ac' 0 then cl + idle_timeout else de)%N an go ca)
        | _, _, _, _ => None
        end
    | Idle =>
        match st, cu, ac with
        | Running, None, 0 => if (de <=? cl)%N then Some (mkowner (Draining "connection closed") wa ho qu None ru co ac cl de an go ca) else None
        | _, _, _ => None
        end
    | Dropped =>
        match st, cu, wa, ho, qu with
        | Running, None, [], [], [] => Some (mkowner (Draining "dispatcher closed") wa ho qu None ru co ac cl de an go ca)
        | _, _, _, _, _ => None
        end
    | Drain => match st, qu with Draining e, w :: r => Some (mkowner st wa ho r cu ru co ac cl de (tell w (Failed e) o) go ca) | _, _ => None end
    | End => match st, ho, qu with Draining _, [], [] => Some (mkowner Ended wa ho qu cu ru co ac cl de an go ca) | _, _, _ => None end
    | Abort =>
        match st with
        | Running | Draining _ => Some (mkowner Aborted wa ho [] None ru co ac cl de (tell_all (cur o ++ qu) Closed o) go ca)
        | _ => None
        end
    | Wait d => Some (mkowner st wa ho qu cu ru co ac (cl + d)%N de an go ca)
    end.
  Fixpoint steps (o : owner) (l : list action) : option owner :=
    match l with [] => Some o | a :: l' => match step o a with Some o' => steps o' l' | None => None end end.
End Owner.
