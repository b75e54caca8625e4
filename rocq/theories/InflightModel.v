(** Sharing requests that are in flight.
    Models bin/router/src/executor/executors/inflight.rs:56-181, its use in
    executor/executors/http.rs:409-470, pipeline/mod.rs:493-511,640-700 and
    pipeline/active_subscriptions.rs:39-96, as the steps that threads can interleave.
    [tokio::sync::OnceCell] is modelled by its contract: one initialiser at a time, and a failed or
    dropped initialisation leaves the cell to the next one waiting. *)
From Coq Require Import List NArith Bool Arith.
Import ListNotations.

Section M.
  Variables V E : Type.
  Definition key := N.

  Inductive phase :=
  | Waiting (c : nat)                    (* holds the cell, wants its value *)
  | Running (c : nat)                    (* its own call is under way: holds the permit and the guard *)
  | Ended (c : nat) (r : V + E)          (* the call has ended, the cell is not set yet *)
  | Got (v : V)
  | Failed (e : E)
  | Gone.                                (* dropped by its client *)
  Record req := mkreq { q_key : key; q_phase : phase }.
  (** A stream that outlives its call (pipeline/mod.rs:645-681): the pump task holds the guard. *)
  Inductive pump := Pumping | Stopped | Dropped.
  Record state := mkstate {
    s_map : key -> option nat;            (* the map: one cell per key *)
    s_val : nat -> option V;              (* the cells *)
    s_busy : nat -> option nat;           (* who holds the cell's permit *)
    s_next : nat;                         (* cells made so far *)
    s_req : nat -> option req;
    s_pump : nat -> option pump }.
  Definition init : state := mkstate (fun _ => None) (fun _ => None) (fun _ => None) 0 (fun _ => None) (fun _ => None).
  Definition upd {A} (f : nat -> A) (i : nat) (a : A) : nat -> A := fun j => if Nat.eqb j i then a else f j.
  Definition updk {A} (f : key -> A) (k : key) (a : A) : key -> A := fun j => if N.eqb j k then a else f j.
  Definition set_req (s : state) (r : nat) (k : key) (p : phase) : state :=
    mkstate (s_map s) (s_val s) (s_busy s) (s_next s) (upd (s_req s) r (Some (mkreq k p))) (s_pump s).
  (** [InFlightCleanupGuard::drop], inflight.rs:175-180 *)
  Definition cleanup (s : state) (k : key) : state :=
    mkstate (updk (s_map s) k None) (s_val s) (s_busy s) (s_next s) (s_req s) (s_pump s).

  Inductive event :=
  | EClaim (r : nat) (k : key)            (* [claim], inflight.rs:56-76 *)
  | EStart (r : nat)                      (* the permit is granted: the closure of [get_or_try_init] runs *)
  | EEnd (r : nat) (res : V + E)          (* [init().await] is over and the guard is dropped, inflight.rs:109-112 *)
  | EEndKeep (r : nat) (v : V)            (* [init(guard).await] hands the guard to the pump, pipeline/mod.rs:645 *)
  | EPublish (r : nat)                    (* the cell is set, or the permit given back *)
  | EJoin (r : nat)                       (* the cell has a value *)
  | ECancel (r : nat)                     (* the future is dropped at an await point *)
  | EStop (r : nat)                       (* the pump leaves its loop: the stream is over *)
  | EDrop (r : nat).                      (* the pump's handle is dropped, with the guard in it *)

  (** [None]: the event cannot happen now. *)
  Definition step (s : state) (e : event) : option state :=
    match e with
    | EClaim r k =>
        match s_req s r with
        | Some _ => None
        | None =>
            match s_map s k with
            | Some c => Some (set_req s r k (Waiting c))
            | None =>
                let c := s_next s in
                Some (set_req (mkstate (updk (s_map s) k (Some c)) (s_val s) (s_busy s) (S c) (s_req s) (s_pump s)) r k (Waiting c))
            end
        end
    | EStart r =>
        match s_req s r with
        | Some (mkreq k (Waiting c)) =>
            match s_val s c, s_busy s c with
            | None, None => Some (set_req (mkstate (s_map s) (s_val s) (upd (s_busy s) c (Some r)) (s_next s) (s_req s) (s_pump s)) r k (Running c))
            | _, _ => None
            end
        | _ => None
        end
    | EEnd r res =>
        match s_req s r with
        | Some (mkreq k (Running c)) => Some (set_req (cleanup s k) r k (Ended c res))
        | _ => None
        end
    | EEndKeep r v =>
        match s_req s r with
        | Some (mkreq k (Running c)) =>
            Some (set_req (mkstate (s_map s) (s_val s) (s_busy s) (s_next s) (s_req s) (upd (s_pump s) r (Some Pumping))) r k (Ended c (inl v)))
        | _ => None
        end
    | EPublish r =>
        match s_req s r with
        | Some (mkreq k (Ended c (inl v))) =>
            Some (set_req (mkstate (s_map s) (upd (s_val s) c (Some v)) (upd (s_busy s) c None) (s_next s) (s_req s) (s_pump s)) r k (Got v))
        | Some (mkreq k (Ended c (inr e))) =>
            Some (set_req (mkstate (s_map s) (s_val s) (upd (s_busy s) c None) (s_next s) (s_req s) (s_pump s)) r k (Failed e))
        | _ => None
        end
    | EJoin r =>
        match s_req s r with
        | Some (mkreq k (Waiting c)) => match s_val s c with Some v => Some (set_req s r k (Got v)) | None => None end
        | _ => None
        end
    | ECancel r =>
        match s_req s r with
        | Some (mkreq k (Waiting c)) => Some (set_req s r k Gone)
        | Some (mkreq k (Running c)) =>
            let s := cleanup s k in
            Some (set_req (mkstate (s_map s) (s_val s) (upd (s_busy s) c None) (s_next s) (s_req s) (s_pump s)) r k Gone)
        | _ => None
        end
    | EStop r =>
        match s_pump s r with
        | Some Pumping => Some (mkstate (s_map s) (s_val s) (s_busy s) (s_next s) (s_req s) (upd (s_pump s) r (Some Stopped)))
        | _ => None
        end
    | EDrop r =>
        match s_pump s r, s_req s r with
        | Some Stopped, Some q =>
            let s := cleanup s (q_key q) in
            Some (mkstate (s_map s) (s_val s) (s_busy s) (s_next s) (s_req s) (upd (s_pump s) r (Some Dropped)))
        | _, _ => None
        end
    end.
  Fixpoint exec (s : state) (l : list event) : option state :=
    match l with
    | [] => Some s
    | e :: l' => match step s e with Some s' => exec s' l' | None => None end
    end.
End M.
Arguments Waiting {V E}. Arguments Running {V E}. Arguments Ended {V E}. Arguments Got {V E}. Arguments Failed {V E}. Arguments Gone {V E}.
Arguments mkreq {V E}. Arguments q_key {V E}. Arguments q_phase {V E}.
Arguments mkstate {V E}. Arguments s_map {V E}. Arguments s_val {V E}. Arguments s_busy {V E}. Arguments s_next {V E}. Arguments s_req {V E}. Arguments s_pump {V E}.
Arguments init {V E}. Arguments step {V E}. Arguments exec {V E}. Arguments set_req {V E}. Arguments cleanup {V E}.
Arguments EClaim {V E}. Arguments EStart {V E}. Arguments EEnd {V E}. Arguments EEndKeep {V E}. Arguments EPublish {V E}.
Arguments EJoin {V E}. Arguments ECancel {V E}. Arguments EStop {V E}. Arguments EDrop {V E}.
