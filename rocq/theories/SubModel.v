(** Channels of subscriptions.
    Models bin/router/src/executor/executors/subscription_buffer.rs:18-153 (bounded buffer that drops
    when full), the broadcast to clients (pipeline/active_subscriptions.rs:42-96,
    pipeline/mod.rs:641-699, shared_state.rs:157-232, websocket_server.rs:715-768) and the way a shared
    response is handed out (pipeline/mod.rs:496-511).
    [tokio::sync::mpsc] and [tokio::sync::broadcast] are modelled by their contracts. *)
From Coq Require Import List Bool Arith.
Import ListNotations.

(** ** The buffer between a subgraph and the router *)
Section Buffer.
  Variable A : Type.
  Inductive outcome := Sent | Dropped | Closed.
  Record buffer := mkbuf {
    u_cap : nat;
    u_buf : list A;
    u_rx : bool;                 (* the consumer holds the receiver *)
    u_tx : bool;                 (* the drainer is running and holds the sender *)
    u_got : list A;              (* what the consumer has received *)
    u_end : bool }.              (* the consumer has seen the end *)
  (** [mpsc::channel] panics on capacity 0. *)
  Definition buffered (cap : nat) : option buffer :=
    match cap with 0 => None | _ => Some (mkbuf cap [] true true [] false) end.
  (** [try_send_or_drop], subscription_buffer.rs:28-66 *)
  Definition try_send (u : buffer) (a : A) : outcome * buffer :=
    if negb (u_rx u) then (Closed, u)
    else if length (u_buf u) <? u_cap u then (Sent, mkbuf (u_cap u) (u_buf u ++ [a]) (u_rx u) (u_tx u) (u_got u) (u_end u))
    else (Dropped, u).
  Definition stop (u : buffer) : buffer := mkbuf (u_cap u) (u_buf u) (u_rx u) false (u_got u) (u_end u).
  Inductive bevent :=
  | BItem (a : A)              (* [source.next()] yields an item *)
  | BEnd                       (* the source is over *)
  | BClosed                    (* [tx.closed()] *)
  | BRecv                      (* the consumer polls and gets an item or the end *)
  | BLeave.                    (* the consumer drops the stream *)
  (** [drain_into] (subscription_buffer.rs:75-110) and the stream of [buffered] (lines 148-152). *)
  Definition bstep (u : buffer) (e : bevent) : option buffer :=
    match e with
    | BItem a => if u_tx u then Some (let '(o, u') := try_send u a in match o with Closed => stop u' | _ => u' end) else None
    | BEnd => if u_tx u then Some (stop u) else None
    | BClosed => if u_tx u && negb (u_rx u) then Some (stop u) else None
    | BRecv =>
        if u_rx u && negb (u_end u) then
          match u_buf u with
          | a :: l => Some (mkbuf (u_cap u) l (u_rx u) (u_tx u) (u_got u ++ [a]) (u_end u))
          | [] => if u_tx u then None else Some (mkbuf (u_cap u) [] (u_rx u) (u_tx u) (u_got u) true)
          end
        else None
    | BLeave => if u_rx u then Some (mkbuf (u_cap u) [] false (u_tx u) (u_got u) (u_end u)) else None
    end.
  Fixpoint bexec (u : buffer) (l : list bevent) : option buffer :=
    match l with [] => Some u | e :: l' => match bstep u e with Some u' => bexec u' l' | None => None end end.
End Buffer.
Arguments mkbuf {A}. Arguments u_cap {A}. Arguments u_buf {A}. Arguments u_rx {A}. Arguments u_tx {A}. Arguments u_got {A}. Arguments u_end {A}.
Arguments buffered {A}. Arguments try_send {A}. Arguments stop {A}. Arguments bstep {A}. Arguments bexec {A}.
Arguments BItem {A}. Arguments BEnd {A}. Arguments BClosed {A}. Arguments BRecv {A}. Arguments BLeave {A}.

(** ** The broadcast to the clients of a subscription *)
Section Broadcast.
  Variable A : Type.
  (** What one [recv] gives. *)
  Inductive recvd := RItem (a : A) | RLagged (n : nat) | RClosed.
  (** [broadcast::channel] keeps the last [cap] items; a receiver knows the number of its next item. *)
  Definition recv (cap : nat) (sent : list A) (open : bool) (pos : nat) : option (recvd * nat) :=
    let tail := length sent in
    if pos + cap <? tail then Some (RLagged (tail - cap - pos), tail - cap)
    else match nth_error sent pos with
         | Some a => Some (RItem a, S pos)
         | None => if open then None else Some (RClosed, pos)
         end.

  (** A client of the subscription: it has the response, reads its stream, or has left. *)
  Inductive client := Holding | Reading (pos : nat) (log : list recvd) | Left.
  Record sub := mksub {
    b_cap : nat;
    b_shared : bool;                    (* deduplicated: the response sits in the cell of the in-flight map *)
    b_sent : list A;
    b_pump : bool;                      (* the pump runs: it owns the handle, the sender and the guard *)
    b_kept : bool;                      (* the receiver made by [register] is still in the response *)
    b_clients : list (nat * client) }.
  Fixpoint find_client (n : nat) (l : list (nat * client)) : option client :=
    match l with [] => None | (m, c) :: l' => if Nat.eqb n m then Some c else find_client n l' end.
  Fixpoint set_client (n : nat) (c : client) (l : list (nat * client)) : list (nat * client) :=
    match l with [] => [(n, c)] | (m, c') :: l' => if Nat.eqb n m then (m, c) :: l' else (m, c') :: set_client n c l' end.
  Definition reading (c : client) : bool := match c with Reading _ _ => true | _ => false end.
  Definition holding (c : client) : bool := match c with Holding => true | _ => false end.
  Definition receivers (s : sub) : bool := b_kept s || existsb (fun x => reading (snd x)) (b_clients s).
  (** Senders left: the pump's handle, and the copies in responses not consumed yet. *)
  Definition open (s : sub) : bool := b_pump s || existsb (fun x => holding (snd x)) (b_clients s).
  (** [register] and the spawned pump; client 0 is the leader. *)
  Definition started (cap : nat) (shared : bool) : sub := mksub cap shared [] true true [(0, Holding)].
  (** The pump ends: the handle is dropped, and the guard with it, so the cell with the kept
      response leaves the map; in the unshared case the leader owns the response. *)
  Definition pump_ends (s : sub) : sub :=
    mksub (b_cap s) (b_shared s) (b_sent s) false (if b_shared s then false else b_kept s) (b_clients s).
  Definition with_client (s : sub) (n : nat) (c : client) : sub :=
    mksub (b_cap s) (b_shared s) (b_sent s) (b_pump s) (b_kept s) (set_client n c (b_clients s)).
  Inductive sevent :=
  | SItem (a : A)              (* the upstream yields an item: pipeline/mod.rs:658-666 *)
  | SEnd                       (* the upstream is over or the supergraph is retired: 667-682 *)
  | SJoin (n : nat)            (* a joiner gets a copy of the response: [Arc::unwrap_or_clone], 496-511 *)
  | SRead (n : nat)            (* the response is turned into a stream: shared_state.rs:187 *)
  | SRecv (n : nat)
  | SLeave (n : nat).
  Definition sstep (s : sub) (e : sevent) : option sub :=
    match e with
    | SItem a =>
        if b_pump s then
          if receivers s then Some (mksub (b_cap s) (b_shared s) (b_sent s ++ [a]) true (b_kept s) (b_clients s))
          else Some (pump_ends s)
        else None
    | SEnd => if b_pump s then Some (pump_ends s) else None
    | SJoin n =>
        if b_shared s && b_pump s then
          match find_client n (b_clients s) with None => Some (with_client s n Holding) | Some _ => None end
        else None
    | SRead n =>
        match find_client n (b_clients s) with
        | Some Holding =>
            (* the copy of a shared response has no receiver (shared_state.rs:167-176) *)
            if b_shared s then Some (with_client s n (Reading (length (b_sent s)) []))
            else Some (with_client (mksub (b_cap s) (b_shared s) (b_sent s) (b_pump s) false (b_clients s)) n (Reading 0 []))
        | _ => None
        end
    | SRecv n =>
        match find_client n (b_clients s) with
        | Some (Reading pos log) =>
            match recv (b_cap s) (b_sent s) (open s) pos with
            | Some (RClosed, pos') => Some (with_client s n Left)
            | Some (r, pos') => Some (with_client s n (Reading pos' (log ++ [r])))
            | None => None
            end
        | _ => None
        end
    | SLeave n =>
        match find_client n (b_clients s) with
        | Some Holding =>
            Some (with_client (if b_shared s then s else mksub (b_cap s) (b_shared s) (b_sent s) (b_pump s) false (b_clients s)) n Left)
        | Some (Reading _ _) => Some (with_client s n Left)
        | _ => None
        end
    end.
  Fixpoint sexec (s : sub) (l : list sevent) : option sub :=
    match l with [] => Some s | e :: l' => match sstep s e with Some s' => sexec s' l' | None => None end end.
End Broadcast.
Arguments RItem {A}. Arguments RLagged {A}. Arguments RClosed {A}. Arguments recv {A}.
Arguments Holding {A}. Arguments Reading {A}. Arguments Left {A}.
Arguments mksub {A}. Arguments b_cap {A}. Arguments b_shared {A}. Arguments b_sent {A}. Arguments b_pump {A}. Arguments b_kept {A}. Arguments b_clients {A}.
Arguments find_client {A}. Arguments set_client {A}. Arguments reading {A}. Arguments holding {A}. Arguments receivers {A}. Arguments open {A}.
Arguments started {A}. Arguments pump_ends {A}. Arguments with_client {A}. Arguments sstep {A}. Arguments sexec {A}.
Arguments SItem {A}. Arguments SEnd {A}. Arguments SJoin {A}. Arguments SRead {A}. Arguments SRecv {A}. Arguments SLeave {A}.
