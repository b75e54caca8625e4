(* The server side of the WebSocket protocol: what the router writes on one
   connection, frame by frame, while its handlers and streams interleave. *)
From Coq Require Import String List Bool Arith NArith.
Import ListNotations.
Open Scope string_scope.
Open Scope list_scope.

(* executor/executors/graphql_transport_ws.rs:309-329 and 20-31: what is
   written on the socket. Bodies and errors are opaque. A close frame is given
   by its code and description. *)
Inductive out : Type :=
| MAck
| MPong
| MNext (id body : string)
| MError (id errors : string)
| MComplete (id : string)
| MClose (code : N) (why : string)
| MWsPong (data : string).

(* graphql_transport_ws.rs:32-75 *)
Definition too_many_inits : out := MClose 4429%N "Too many initialisation requests".
Definition unauthorized : out := MClose 4401%N "Unauthorized".
Definition forbidden (why : string) : out := MClose 4403%N why.
Definition bad_request (why : string) : out := MClose 4400%N why.
Definition init_timeout : out := MClose 4408%N "Connection initialisation timeout".
Definition already_exists (id : string) : out :=
  MClose 4409%N ("Subscriber for " ++ id ++ " already exists").
Definition internal_error (why : option string) : out :=
  MClose 4500%N match why with Some w => w | None => "Internal Server Error" end.
(* executor/executors/websocket_common.rs:161-169, 183-190; the code 1003 *)
Definition unsupported (why : string) : out := MClose 1003%N why.

(* graphql_transport_ws.rs:417-432: a body that is not JSON closes the
   connection. *)
Definition next_message (id : string) (body : option string) : out :=
  match body with Some b => MNext id b | None => internal_error None end.

(* graphql_transport_ws.rs:139-154: what a client sends *)
Inductive cmsg : Type :=
| CInit | CPing | CPong
| CSubscribe (id : string)
| CComplete (id : string).

(* websocket_common.rs:151-202. A text frame comes with the result of
   selecting the supergraph and of decoding the message
   (pipeline/websocket_server.rs:242-263). *)
Inductive frame : Type :=
| FText (supergraph : bool) (m : option cmsg)
| FBadUtf8 | FBinary
| FPing (data : string) | FPong | FClose | FOther.

(* How the handling of a subscribe message ends
   (websocket_server.rs:344-368, 424-452, 454-536, 618-648, 691-780). *)
Inductive outcome : Type :=
| OError (errors : string)
| OBroken
| OForbidden (errors code : string)
| OSingle (body : option string)
| OStream.

(* websocket_server.rs:727-752 *)
Inductive event : Type :=
| ERaw (body : option string)
| EError (errors : string)
| ELagged
| EClosed.

Inductive phase : Type :=
| Waiting                (* the handler waits for its outcome *)
| Replying (m : out)     (* it has written once and m is left *)
| Looping                (* the spawned task is in its loop *)
| Last                   (* it has left the loop, Complete is left *)
| Ending.                (* nothing left but to drop its guard *)

Record task : Type := mktask { t_inst : nat; t_id : string; t_phase : phase }.

Inductive act : Type :=
| AFrame (f : frame)
| AOutcome (n : nat) (o : outcome)
| AReply (n : nat)
| AEvent (n : nat) (e : event)
| ACancel (n : nat)
| ALast (n : nat)
| ADrop (n : nat)
| ATimeout
| AShutdown.

(* What happened, in order: an action, or a message written (by the instance
   of an operation, or by the connection). *)
Inductive entry : Type :=
| EIn (a : act)
| EOut (who : option nat) (m : out).

(* websocket_common.rs:14-39. The sender that is stored for an id is named by
   the instance whose stream it cancels. *)
Record conn : Type := mkconn {
  c_received : bool;
  c_acked : bool;
  c_subs : list (string * nat);
  c_tasks : list task;
  c_next : nat;
  c_down : bool;
  c_log : list entry
}.

Definition start : conn := mkconn false false [] [] 0 false [].

Definition writes (c : conn) (who : option nat) (ms : list out) : conn :=
  mkconn (c_received c) (c_acked c) (c_subs c) (c_tasks c) (c_next c) (c_down c)
         (c_log c ++ map (EOut who) ms).

Definition notes (c : conn) (a : act) : conn :=
  mkconn (c_received c) (c_acked c) (c_subs c) (c_tasks c) (c_next c) (c_down c)
         (c_log c ++ [EIn a]).

Definition with_subs (c : conn) (l : list (string * nat)) : conn :=
  mkconn (c_received c) (c_acked c) l (c_tasks c) (c_next c) (c_down c) (c_log c).

Definition with_tasks (c : conn) (l : list task) : conn :=
  mkconn (c_received c) (c_acked c) (c_subs c) l (c_next c) (c_down c) (c_log c).

Fixpoint held (id : string) (l : list (string * nat)) : option nat :=
  match l with
  | [] => None
  | (k, n) :: l' => if String.eqb k id then Some n else held id l'
  end.

Definition release (id : string) (l : list (string * nat)) : list (string * nat) :=
  filter (fun x => negb (String.eqb (fst x) id)) l.

Definition hold (id : string) (n : nat) (l : list (string * nat)) : list (string * nat) :=
  release id l ++ [(id, n)].

Fixpoint find_task (n : nat) (l : list task) : option task :=
  match l with
  | [] => None
  | t :: l' => if Nat.eqb (t_inst t) n then Some t else find_task n l'
  end.

Definition set_phase (n : nat) (p : phase) (l : list task) : list task :=
  map (fun t => if Nat.eqb (t_inst t) n then mktask n (t_id t) p else t) l.

Definition end_task (n : nat) (l : list task) : list task :=
  filter (fun t => negb (Nat.eqb (t_inst t) n)) l.

(* websocket_server.rs:265-302 and 783-803, up to the first wait *)
Definition message (c : conn) (m : cmsg) : conn :=
  match m with
  | CInit =>
      if c_received c then writes c None [too_many_inits]
      else writes (mkconn true true (c_subs c) (c_tasks c) (c_next c) (c_down c) (c_log c)) None [MAck]
  | CSubscribe id =>
      if negb (c_acked c) then writes c None [unauthorized]
      else match held id (c_subs c) with
           | Some _ => writes c None [already_exists id]
           | None => mkconn (c_received c) (c_acked c) (c_subs c)
                            (c_tasks c ++ [mktask (c_next c) id Waiting])
                            (S (c_next c)) (c_down c) (c_log c)
           end
  | CComplete id =>
      if negb (c_acked c) then writes c None [unauthorized]
      else with_subs c (release id (c_subs c))
  | CPing => writes c None [MPong]
  | CPong => c
  end.

(* websocket_server.rs:162-186, 242-263; websocket_common.rs:151-202 *)
Definition on_frame (c : conn) (f : frame) : conn :=
  match f with
  | FText false _ => writes c None [internal_error (Some "Supergraph runtime error")]
  | FText true None => writes c None [bad_request "Invalid message received from client"]
  | FText true (Some m) => message c m
  | FBadUtf8 => writes c None [unsupported "Invalid UTF-8 in message"]
  | FBinary => writes c None [unsupported "Unsupported message type"]
  | FPing data => writes c None [MWsPong data]
  | FPong | FClose | FOther => c
  end.

(* websocket_server.rs:344-368, 424-452, 618-648, 691-722 *)
Definition on_outcome (c : conn) (n : nat) (id : string) (o : outcome) : conn :=
  match o with
  | OError errors =>
      with_tasks (writes c (Some n) [MError id errors]) (end_task n (c_tasks c))
  | OBroken =>
      with_tasks (writes c (Some n) [internal_error None]) (end_task n (c_tasks c))
  | OForbidden errors code =>
      with_tasks (writes c (Some n) [MError id errors])
                 (set_phase n (Replying (forbidden code)) (c_tasks c))
  | OSingle body =>
      with_tasks (writes c (Some n) [next_message id body])
                 (set_phase n (Replying (MComplete id)) (c_tasks c))
  | OStream =>
      with_tasks (with_subs c (hold id n (c_subs c))) (set_phase n Looping (c_tasks c))
  end.

(* websocket_server.rs:727-752 *)
Definition on_event (c : conn) (n : nat) (id : string) (e : event) : conn :=
  match e with
  | ERaw body => writes c (Some n) [next_message id body]
  | EError errors =>
      with_tasks (writes c (Some n) [MError id errors]) (set_phase n Last (c_tasks c))
  | ELagged => c
  | EClosed => with_tasks c (set_phase n Last (c_tasks c))
  end.

(* The sender of the stream is in the map no more: it was used
   (websocket_server.rs:788-791) or dropped, and the other branch of the
   select (753-756) is ready in both cases. *)
Definition signalled (c : conn) (n : nat) (id : string) : bool :=
  match held id (c_subs c) with Some k => negb (Nat.eqb k n) | None => true end.

(* One step; None when the action cannot happen. *)
Definition step (c : conn) (a : act) : option conn :=
  let c1 := notes c a in
  match a with
  | AFrame f => if c_down c then None else Some (on_frame c1 f)
  | AOutcome n o =>
      match find_task n (c_tasks c) with
      | Some (mktask _ id Waiting) => Some (on_outcome c1 n id o)
      | _ => None
      end
  | AReply n =>
      match find_task n (c_tasks c) with
      | Some (mktask _ _ (Replying m)) =>
          Some (with_tasks (writes c1 (Some n) [m]) (end_task n (c_tasks c)))
      | _ => None
      end
  | AEvent n e =>
      match find_task n (c_tasks c) with
      | Some (mktask _ id Looping) => Some (on_event c1 n id e)
      | _ => None
      end
  | ACancel n =>
      match find_task n (c_tasks c) with
      | Some (mktask _ id Looping) =>
          if signalled c n id
          then Some (with_tasks c1 (set_phase n Ending (c_tasks c)))
          else None
      | _ => None
      end
  | ALast n =>   (* websocket_server.rs:759-765 *)
      match find_task n (c_tasks c) with
      | Some (mktask _ id Last) =>
          Some (with_tasks (writes c1 (Some n) [MComplete id]) (set_phase n Ending (c_tasks c)))
      | _ => None
      end
  | ADrop n =>   (* websocket_server.rs:209-220 *)
      match find_task n (c_tasks c) with
      | Some (mktask _ id Ending) =>
          Some (with_tasks (with_subs c1 (release id (c_subs c))) (end_task n (c_tasks c)))
      | _ => None
      end
  | ATimeout =>  (* websocket_common.rs:117-138 *)
      if c_acked c || c_received c then None
      else Some (writes c1 None [init_timeout])
  | AShutdown => (* websocket_server.rs:190-204, when no handler is left *)
      if c_down c || existsb (fun t => match t_phase t with Waiting | Replying _ => true | _ => false end) (c_tasks c)
      then None
      else Some (mkconn (c_received c) true [] (c_tasks c) (c_next c) true (c_log c1))
  end.

Fixpoint steps (c : conn) (l : list act) : option conn :=
  match l with
  | [] => Some c
  | a :: l' => match step c a with Some c' => steps c' l' | None => None end
  end.
