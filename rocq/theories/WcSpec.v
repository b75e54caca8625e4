(* What one subscription sees and says, by itself: a machine that follows a
   single subscription from its start, without a map of the others. *)
From Coq Require Import String List Bool Arith NArith.
From Verif Require Import StrUtil WcModel.
Import ListNotations.
Open Scope string_scope.
Open Scope list_scope.

(* The subscriptions of a connection are numbered from 0; their names count
   from 1. *)
Definition name (k : nat) : string := N_to_dec (N.of_nat k + 1).
(* Names go up to 2^64 - 2. *)
Definition numbered (k : nat) : Prop := (N.of_nat k < 18446744073709551614)%N.

(* The call that starts a subscription, and what happens after it *)
Fixpoint since (k : nat) (tr : list action) : option (string * string * list action) :=
  match tr with
  | [] => None
  | Begin payload paths :: r => match k with O => Some (payload, paths, r) | S k => since k r end
  | _ :: r => since k r
  end.
Fixpoint calls (tr : list action) : nat :=
  match tr with
  | [] => 0
  | Begin _ _ :: r => S (calls r)
  | _ :: r => calls r
  end.

(* The end of the connection as a subscription sees it *)
Definition fatal (r : received) : option cerror :=
  match r with
  | Broken | Ended => Some DispatcherClosed
  | Frame RClose | Frame RBadUtf8 | Frame RBinary | Frame (RText None) => Some ConnectionClosed
  | Frame _ => None
  end.
Inductive effect : Type := Silent | Gets (i : item) | Ends (l : list item).

(* Who has the stream: the call that starts it, the consumer, nobody *)
Inductive owner : Type := Writing | Owned | Gone.
Record view : Type := mkview {
  v_items : list item; v_open : bool; v_live : bool; v_owner : owner; v_said : list wmsg }.
Definition fresh : view := mkview [] true true Writing [].

Section View.
  Variable parse : string -> string -> option string.
  Variables id payload paths : string.

  Definition effect_of (a : action) : effect :=
    match a with
    | Receive (Frame (RText (Some (SNext i p)))) =>
        if String.eqb i id then Gets match parse paths p with Some r => Response r | None => Failed BadPayload end else Silent
    | Receive (Frame (RText (Some (SError i es)))) => if String.eqb i id then Ends [Errors es] else Silent
    | Receive (Frame (RText (Some (SComplete i)))) => if String.eqb i id then Ends [] else Silent
    | Receive r => match fatal r with Some e => Ends [Failed e] | None => Silent end
    | StopDispatcher => Ends [Failed ConnectionClosed]
    | _ => Silent
    end.
  Definition vstep (v : view) (a : action) : view :=
    match a with
    | Sent => match v_owner v with
              | Writing => mkview (v_items v) (v_open v) (v_live v) Owned (v_said v ++ [WSubscribe id payload])
              | _ => v
              end
    | NotSent wrote => match v_owner v with
                       | Writing => mkview (v_items v) (v_open v) false Gone (v_said v ++ if wrote then [WSubscribe id payload] else [])
                       | _ => v
                       end
    | Drop i => match v_owner v with
                | Owned => if String.eqb i id
                           then mkview (v_items v) (v_open v) false Gone (v_said v ++ if v_live v then [WComplete id] else [])
                           else v
                | _ => v
                end
    | _ => if v_live v
           then match effect_of a with
                | Silent => v
                | Gets i => mkview (v_items v ++ [i]) (v_open v) true (v_owner v) (v_said v)
                | Ends l => mkview (v_items v ++ l) false false (v_owner v) (v_said v)
                end
           else v
    end.
  Definition sees (tail : list action) : view := fold_left vstep tail fresh.

  (* ** What can be said of a stream without a machine *)
  (* The responses in some of the messages received *)
  Definition answers (l : list action) : list item :=
    flat_map (fun a => match effect_of a with Gets i => [i] | _ => [] end) l.
End View.

(* The actions that end a subscription, but for what its owner does *)
Definition over (id : string) (a : action) : Prop :=
  match a with
  | Receive (Frame (RText (Some (SError i _)))) | Receive (Frame (RText (Some (SComplete i)))) => i = id
  | Receive r => fatal r <> None
  | StopDispatcher => True
  | _ => False
  end.
(* What the last of them leaves in the stream *)
Definition last_words (a : action) : list item :=
  match a with
  | Receive (Frame (RText (Some (SError _ es)))) => [Errors es]
  | Receive (Frame (RText (Some (SComplete _)))) => []
  | Receive r => match fatal r with Some e => [Failed e] | None => [] end
  | StopDispatcher => [Failed ConnectionClosed]
  | _ => []
  end.
(* The end of the dispatcher *)
Definition dead (a : action) : Prop :=
  match a with Receive r => fatal r <> None | StopDispatcher => True | _ => False end.
(* What is written about no subscription *)
Definition refusal (r : received) : list wmsg :=
  match r with
  | Frame (RText None) => [WClose 4004%N "Invalid message received from server"]
  | Frame RBadUtf8 => [WClose 1003%N "Invalid UTF-8 in message"]
  | Frame RBinary => [WClose 1003%N "Unsupported message type"]
  | _ => []
  end.
Definition answer (r : received) : list wmsg :=
  match r with
  | Frame (RText (Some SPing)) => [WPong]
  | Frame (RPing d) => [WWsPong d]
  | _ => []
  end.
Definition general (w : wmsg) : bool := match w with WSubscribe _ _ | WComplete _ => false | _ => true end.
Definition says (a : action) : list wmsg :=
  match a with
  | Receive r => answer r ++ refusal r
  | DropClient => [WClose 1000%N ""]
  | _ => []
  end.

(* The messages about a subscription among those written *)
Definition about (id : string) (w : wmsg) : bool :=
  match w with WSubscribe i _ | WComplete i => String.eqb i id | _ => false end.
Definition of_view (c : client) (id payload paths : string) (v : view) : Prop :=
  get id (channels c) = Some (mkchan (v_items v) (v_open v)) /\
  get id (subs c) = (if v_live v then Some paths else None) /\
  match v_owner v with Writing => starting c = Some (id, payload) | _ => forall p, starting c <> Some (id, p) end /\
  (v_owner v = Owned <-> In id (held c)) /\
  filter (about id) (written c) = v_said v.
Definition unknown (c : client) (id : string) : Prop :=
  get id (channels c) = None /\ get id (subs c) = None /\ (forall p, starting c <> Some (id, p)) /\ ~ In id (held c) /\ filter (about id) (written c) = [].

(* ** The handshake *)
(* What a server may send before the acknowledgement *)
Definition idle (r : received) : Prop :=
  match r with
  | Frame (RText (Some SPing)) | Frame (RText (Some SPong)) | Frame (RPing _) | Frame RPong | Frame ROther => True
  | _ => False
  end.
(* What ends the handshake without it, and how *)
Definition init_refused (r : received) (w : list wmsg) (e : init_error) : Prop :=
  match r with
  | Broken => w = [] /\ e = ReceiverFailed
  | Ended => w = [] /\ e = ReceiverClosed
  | Frame RClose => w = [] /\ e = ClosedBeforeAck
  | Frame (RText None) => w = [WClose 4004%N "Invalid message received from server"] /\ e = InvalidMessage
  | Frame (RText (Some (SNext _ _))) | Frame (RText (Some (SError _ _))) | Frame (RText (Some (SComplete _))) =>
      w = [WClose 4401%N "Unauthorized"] /\ e = WrongMessage
  | _ => False
  end.
Definition unreadable (r : received) : Prop := r = Frame RBadUtf8 \/ r = Frame RBinary.
