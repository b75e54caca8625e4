(* The client side of the WebSocket protocol: how the router keeps several
   subscriptions to one subgraph on one connection. Models
   bin/router/src/executor/executors/websocket_client.rs, with the frames of
   websocket_common.rs. *)
From Coq Require Import String List Bool Arith NArith.
From Verif Require Import StrUtil.
Import ListNotations.
Open Scope string_scope.
Open Scope list_scope.

(* websocket_client.rs:62-73, without the errors of a failed write *)
Inductive cerror : Type := ConnectionClosed | DispatcherClosed | BadPayload.

(* What a stream of responses yields: a response of the subgraph, the errors
   of an [error] message, or an error of the client (lines 139, 500-529). *)
Inductive item : Type :=
| Response (r : string)
| Errors (es : string)
| Failed (e : cerror).

(* graphql_transport_ws.rs:313-333: what a server sends *)
Inductive smsg : Type :=
| SAck | SPing | SPong
| SNext (id payload : string)
| SError (id errors : string)
| SComplete (id : string).

(* websocket_common.rs:151-202. A text comes decoded, or not if it is no
   message (websocket_client.rs:540-549). *)
Inductive frame : Type :=
| RText (m : option smsg)
| RBadUtf8 | RBinary
| RPing (data : string) | RPong | RClose | ROther.

(* What [receiver.next()] gives *)
Inductive received : Type := Frame (f : frame) | Broken | Ended.

(* What the client writes. A close frame is given by its code and
   description. *)
Inductive wmsg : Type :=
| WInit | WPong
| WSubscribe (id payload : string)
| WComplete (id : string)
| WWsPong (data : string)
| WClose (code : N) (why : string).

(* graphql_transport_ws.rs:55-58, 67-70; websocket_common.rs:161-169, 183-190 *)
Definition unauthorized : wmsg := WClose 4401%N "Unauthorized".
Definition bad_response : wmsg := WClose 4004%N "Invalid message received from server".
Definition unsupported (why : string) : wmsg := WClose 1003%N why.
Definition is_close (w : wmsg) : bool := match w with WClose _ _ => true | _ => false end.

(* [parse_frame_to_text], websocket_common.rs:151-202 *)
Inductive parsed : Type :=
| Text (m : option smsg)
| Reply (w : wmsg)
| Nothing
| Closed.
Definition parse_frame (f : frame) : parsed :=
  match f with
  | RText m => Text m
  | RBadUtf8 => Reply (unsupported "Invalid UTF-8 in message")
  | RPing d => Reply (WWsPong d)
  | RPong => Nothing
  | RBinary => Reply (unsupported "Unsupported message type")
  | RClose => Closed
  | ROther => Nothing
  end.

(* ** The handshake, websocket_client.rs:219-276 *)
Inductive init_error : Type :=
| ReceiverFailed | ReceiverClosed | ClosedBeforeAck | InvalidMessage | WrongMessage.
(* With [Ready] comes what is left to receive. *)
Inductive init_result : Type :=
| Waiting
| Ready (rest : list received)
| Refused (e : init_error).
Fixpoint init_loop (l : list received) : list wmsg * init_result :=
  let more w k := let (ws, r) := init_loop k in (w ++ ws, r) in
  match l with
  | [] => ([], Waiting)
  | Broken :: _ => ([], Refused ReceiverFailed)
  | Ended :: _ => ([], Refused ReceiverClosed)
  | Frame f :: k =>
      match parse_frame f with
      | Text None => ([bad_response], Refused InvalidMessage)
      | Text (Some SAck) => ([], Ready k)
      | Text (Some SPing) => more [WPong] k
      | Text (Some SPong) => more [] k
      | Text (Some _) => ([unauthorized], Refused WrongMessage)
      | Reply w => more [w] k
      | Closed => ([], Refused ClosedBeforeAck)
      | Nothing => more [] k
      end
  end.
Definition init (l : list received) : list wmsg * init_result :=
  let (ws, r) := init_loop l in (WInit :: ws, r).

(* ** The connection *)
(* The channel of a subscription: what was sent into it, and whether its
   sender closed it. *)
Record channel : Type := mkchan { ch_items : list item; ch_open : bool }.
(* [subs] is the map of the state, with the custom scalars of each
   subscription; [starting] is the subscription whose message is being written,
   of which there is one at most as [subscribe] borrows the client; [held] are
   the streams handed out, [alive] and [running] tell whether the client and
   the dispatcher are there. *)
Record client : Type := mkclient {
  subs : list (string * string);
  next : N;
  starting : option (string * string);
  held : list string;
  alive : bool;
  running : bool;
  channels : list (string * channel);
  written : list wmsg }.
(* lines 295-303 *)
Definition start : client := mkclient [] 1 None [] true true [] [].

Definition u64_max : N := 18446744073709551615.
Fixpoint get {A : Type} (id : string) (l : list (string * A)) : option A :=
  match l with
  | [] => None
  | (k, x) :: r => if String.eqb k id then Some x else get id r
  end.
Definition del {A : Type} (id : string) (l : list (string * A)) : list (string * A) :=
  filter (fun e => negb (String.eqb (fst e) id)) l.
Definition into (id : string) (its : list item) (close : bool) (l : list (string * channel)) : list (string * channel) :=
  map (fun e => if String.eqb (fst e) id
                then (fst e, mkchan (ch_items (snd e) ++ its) (ch_open (snd e) && negb close))
                else e) l.

Definition with_subs (c : client) s ch w := mkclient s (next c) (starting c) (held c) (alive c) (running c) ch (written c ++ w).
(* lines 286-292, 467-476: the end of the dispatcher *)
Definition drain (e : cerror) (c : client) (w : list wmsg) : client :=
  mkclient [] (next c) (starting c) (held c) (alive c) false
           (fold_left (fun l s => into (fst s) [Failed e] true l) (subs c) (channels c)) (written c ++ w).

Section Client.
  (* [SubgraphResponse::deserialize_from_bytes] with custom scalars *)
  Variable parse : string -> string -> option string.

  (* lines 484-538 *)
  Definition on_message (m : smsg) (c : client) : client * option wmsg :=
    match m with
    | SAck => (c, None)
    | SNext id payload =>
        (match get id (subs c) with
         | Some paths =>
             let it := match parse paths payload with Some r => Response r | None => Failed BadPayload end in
             with_subs c (subs c) (into id [it] false (channels c)) []
         | None => c
         end, None)
    | SError id errors =>
        (match get id (subs c) with
         | Some _ => with_subs c (del id (subs c)) (into id [Errors errors] true (channels c)) []
         | None => c
         end, None)
    | SComplete id =>
        (match get id (subs c) with
         | Some _ => with_subs c (del id (subs c)) (into id [] true (channels c)) []
         | None => c
         end, None)
    | SPing => (c, Some WPong)
    | SPong => (c, None)
    end.
  (* lines 422-460, 478-482 *)
  Definition reply (w : wmsg) (c : client) : client :=
    if is_close w then drain ConnectionClosed c [w] else with_subs c (subs c) (channels c) [w].
  Definition receive (r : received) (c : client) : client :=
    match r with
    | Broken | Ended => drain DispatcherClosed c []
    | Frame f =>
        match parse_frame f with
        | Text None => reply bad_response c
        | Text (Some m) => let (c', w) := on_message m c in match w with Some w => reply w c' | None => c' end
        | Reply w => reply w c
        | Closed => drain ConnectionClosed c []
        | Nothing => c
        end
    end.

  (* What happens on a connection: [subscribe] is called, its message is
     written, or it is not and the call fails or is given up ([wrote] tells
     whether the message went out nevertheless); something is received; the
     consumer of a stream drops it; the client is dropped; the task of the
     dispatcher is dropped. *)
  Inductive action : Type :=
  | Begin (payload paths : string)
  | Sent
  | NotSent (wrote : bool)
  | Receive (r : received)
  | Drop (id : string)
  | DropClient
  | StopDispatcher.

  (* lines 308-316, 331-348 *)
  Definition begin (payload paths : string) (c : client) : client :=
    if N.eqb (next c) u64_max then c
    else let id := N_to_dec (next c) in
         mkclient ((id, paths) :: del id (subs c)) (next c + 1) (Some (id, payload)) (held c) (alive c) (running c)
                  ((id, mkchan [] true) :: channels c) (written c).
  (* lines 402-419; [complete] is [send_complete] *)
  Definition drop_guard (id : string) (complete : bool) (c : client) : client :=
    match get id (subs c) with
    | Some _ => with_subs c (del id (subs c)) (channels c) (if complete then [WComplete id] else [])
    | None => c
    end.
  Definition unstart (c : client) : client :=
    mkclient (subs c) (next c) None (held c) (alive c) (running c) (channels c) (written c).
  Definition write (w : wmsg) (c : client) : client := with_subs c (subs c) (channels c) [w].

  (* lines 350-374 and 402-419 *)
  Definition step (c : client) (a : action) : option client :=
    match a with
    | Begin payload paths =>
        match starting c with
        | None => if alive c then Some (begin payload paths c) else None
        | Some _ => None
        end
    | Sent =>
        match starting c with
        | Some (id, payload) =>
            let c := write (WSubscribe id payload) (unstart c) in
            Some (mkclient (subs c) (next c) None (id :: held c) (alive c) (running c) (channels c) (written c))
        | None => None
        end
    | NotSent wrote =>
        match starting c with
        | Some (id, payload) =>
            let c := if wrote then write (WSubscribe id payload) (unstart c) else unstart c in
            Some (drop_guard id false c)
        | None => None
        end
    | Receive r => if running c then Some (receive r c) else None
    | Drop id =>
        if existsb (String.eqb id) (held c)
        then let c := mkclient (subs c) (next c) (starting c) (filter (fun x => negb (String.eqb x id)) (held c))
                               (alive c) (running c) (channels c) (written c) in
             Some (drop_guard id true c)
        else None
    (* lines 377-390; the code 1000 *)
    | DropClient =>
        match starting c with
        | None => if alive c
                  then Some (mkclient (subs c) (next c) None (held c) false (running c) (channels c) (written c ++ [WClose 1000%N ""]))
                  else None
        | Some _ => None
        end
    | StopDispatcher => if running c then Some (drain ConnectionClosed c []) else None
    end.
  Fixpoint steps (c : client) (l : list action) : option client :=
    match l with
    | [] => Some c
    | a :: r => match step c a with Some c' => steps c' r | None => None end
    end.
End Client.
