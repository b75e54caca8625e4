(** Subscriptions over HTTP callbacks: the subgraph posts the events of a subscription to the router.
    Models bin/router/src/pipeline/http_callback.rs, bin/router/src/executor/executors/http_callback.rs:32-335 and
    the task that enforces heartbeats, bin/router/src/schema_state.rs:990-1055.
    Steps of one subscription interleave with all others; a handler that removes an entry does so in a step of its own. *)
From Coq Require Import String List Bool NArith.
Import ListNotations.
Local Open Scope string_scope.
Local Open Scope list_scope.

Section Callback.
  (** raw payloads, errors and responses *)
  Variables P E R : Type.
  (** [SubgraphResponse::deserialize_from_bytes] *)
  Variable decode : P -> option R.
  (** the error "Subgraph gone due to heartbeat timeout" *)
  Variable gone : E.
  (** [heartbeat_interval + grace_period], schema_state.rs:1017-1024 *)
  Variable deadline : N.

  (** executors/http_callback.rs:32-56 *)
  Inductive msg := Next (p : P) | Complete (errors : option (list E)).
  Record entry := mkentry { e_verifier : string; e_created : N; e_beat : option N }.
  (** A stream before the answer to its request, while it is read, after its receiver is dropped but not yet its guard, and after it is over *)
  Inductive phase := Asking | Streaming | Left | Ended.
  Record stream := mkstream { s_phase : phase; s_queue : list msg }.
  Record state := mkstate { now : N; entries : string -> option entry; streams : string -> option stream; doomed : list string; late : list string }.
  Definition start : state := mkstate 0 (fun _ => None) (fun _ => None) [] [].
  Definition upd {A} (m : string -> option A) (k : string) (v : option A) : string -> option A := fun k' => if String.eqb k k' then v else m k'.
  Definition set_entry (k : string) (v : option entry) (s : state) : state := mkstate (now s) (upd (entries s) k v) (streams s) (doomed s) (late s).
  Definition set_stream (k : string) (v : stream) (s : state) : state := mkstate (now s) (entries s) (upd (streams s) k (Some v)) (doomed s) (late s).
  Definition doom (k : string) (s : state) : state := mkstate (now s) (entries s) (streams s) (k :: doomed s) (late s).

  (** pipeline/http_callback.rs:29-48 *)
  Inductive action := ACheck | ANext | AComplete.
  Record body := mkbody { b_action : action; b_id : string; b_verifier : string; b_payload : option P; b_errors : option (list E) }.
  (** pipeline/http_callback.rs:50-66, and the answer without content *)
  Inductive reply := InvalidProtocolHeader | PayloadParseError | SubscriptionIdMismatch | MissingPayload | SubscriptionNotFound | InvalidVerifier | SubscriptionDropped | NoContent.
  (** pipeline/http_callback.rs:94-106 *)
  Definition status (r : reply) : N :=
    match r with
    | InvalidProtocolHeader | PayloadParseError | MissingPayload | InvalidVerifier => 400
    | SubscriptionNotFound | SubscriptionDropped | SubscriptionIdMismatch => 404
    | NoContent => 204
    end.

  Inductive yielded := Event (r : R) | Undecodable | Errors (l : list E).
  Inductive label := LSent (id : string) (m : msg) | LFull (id : string) (m : msg) | LClosed (id : string) | LYield (id : string) (y : yielded) | LReply (r : reply) | LEvicted (id : string).

  (** [mpsc::Sender::try_send] on a channel of 16, executors/http_callback.rs:184 *)
  Definition capacity : nat := 16.
  Definition try_send (id : string) (m : msg) (s : state) : state * label :=
    match streams s id with
    | Some (mkstream ((Asking | Streaming) as ph) q) =>
        if Nat.ltb (length q) capacity then (set_stream id (mkstream ph (q ++ [m])) s, LSent id m) else (s, LFull id m)
    | _ => (s, LClosed id)
    end.

  (** pipeline/http_callback.rs:143-261; [protocol] says whether the header is [callback/1.0], [None] is a body that cannot be parsed *)
  Definition handle_next (b : body) (s : state) : state * list label :=
    match b_payload b with
    | None => (s, [LReply MissingPayload])
    | Some p =>
        let '(s', l) := try_send (b_id b) (Next p) s in
        match l with
        | LClosed _ => (doom (b_id b) s', [l; LReply SubscriptionDropped])
        | _ => (s', [l; LReply NoContent])
        end
    end.
  Definition post (protocol : bool) (path : string) (b : option body) (s : state) : state * list label :=
    if negb protocol then (s, [LReply InvalidProtocolHeader])
    else match b with
         | None => (s, [LReply PayloadParseError])
         | Some b =>
             if negb (String.eqb (b_id b) path) then (s, [LReply SubscriptionIdMismatch])
             else match entries s (b_id b) with
                  | None => (s, [LReply SubscriptionNotFound])
                  | Some e =>
                      if negb (String.eqb (e_verifier e) (b_verifier b)) then (s, [LReply InvalidVerifier])
                      else match b_action b with
                           | ACheck => (set_entry (b_id b) (Some (mkentry (e_verifier e) (e_created e) (Some (now s)))) s, [LReply NoContent])
                           | ANext => handle_next b s
                           | AComplete => let '(s', l) := try_send (b_id b) (Complete (b_errors b)) s in (doom (b_id b) s', [l; LReply NoContent])
                           end
                  end
         end.

  Inductive event :=
  | Tick (n : N)
  | Subscribe (id verifier : string)          (** executors/http_callback.rs:173-202 *)
  | Answered (id : string) (ok : bool)        (** the answer to the request, or its failure, lines 222-270 *)
  | Receive (id : string)                     (** one round of the loop, lines 294-333 *)
  | Leave (id : string) | Unguard (id : string) (** the stream is dropped: its receiver, and its guard, lines 65-70 *)
  | Post (protocol : bool) (path : string) (b : option body)
  | Remove (id : string)                      (** the second half of a handler *)
  | Judge (id : string) | Evict (id : string). (** the two loops of the enforcer *)

  Definition finish (id : string) (s : state) : state := set_stream id (mkstream Ended []) (set_entry id None s).
  Definition receive (id : string) (s : state) : state * list label :=
    match streams s id with
    | Some (mkstream Streaming q) =>
        match q with
        | [] => match entries s id with Some _ => (s, []) | None => (finish id s, []) end
        | Next p :: q' =>
            match decode p with
            | Some r => (set_stream id (mkstream Streaming q') s, [LYield id (Event r)])
            | None => (finish id s, [LYield id Undecodable])
            end
        | Complete e :: _ =>
            (finish id s, match e with Some (x :: l) => [LYield id (Errors (x :: l))] | _ => [] end)
        end
    | _ => (s, [])
    end.
  Definition last_sign (e : entry) : N := match e_beat e with Some t => t | None => e_created e end.
  Definition without (id : string) (l : list string) : list string := filter (fun x => negb (String.eqb id x)) l.
  Definition step (s : state) (e : event) : state * list label :=
    match e with
    | Tick n => (mkstate (now s + n) (entries s) (streams s) (doomed s) (late s), [])
    | Subscribe id v => (set_stream id (mkstream Asking []) (set_entry id (Some (mkentry v (now s) None)) s), [])
    | Answered id ok =>
        match streams s id with
        | Some (mkstream Asking q) => (if ok then set_stream id (mkstream Streaming q) s else finish id s, [])
        | _ => (s, [])
        end
    | Receive id => receive id s
    | Leave id =>
        match streams s id with
        | Some (mkstream (Asking | Streaming) _) => (set_stream id (mkstream Left []) s, [])
        | _ => (s, [])
        end
    | Unguard id => match streams s id with Some (mkstream Left _) => (finish id s, []) | _ => (s, []) end
    | Post h p b => post h p b s
    | Remove id =>
        if existsb (String.eqb id) (doomed s) then (set_entry id None (mkstate (now s) (entries s) (streams s) (without id (doomed s)) (late s)), [])
        else (s, [])
    | Judge id =>
        match entries s id with
        | Some e => (if N.ltb deadline (now s - last_sign e) then mkstate (now s) (entries s) (streams s) (doomed s) (id :: late s) else s, [])
        | None => (s, [])
        end
    | Evict id =>
        if existsb (String.eqb id) (late s) then
          let s' := mkstate (now s) (entries s) (streams s) (doomed s) (without id (late s)) in
          match entries s id with
          | Some _ => let '(s2, l) := try_send id (Complete (Some [gone])) (set_entry id None s') in (s2, [LEvicted id; l])
          | None => (s', [])
          end
        else (s, [])
    end.
  Fixpoint exec (s : state) (l : list event) : state * list label :=
    match l with
    | [] => (s, [])
    | e :: l' => let '(s1, a) := step s e in let '(s2, b) := exec s1 l' in (s2, a ++ b)
    end.
End Callback.
Arguments Next {P E}. Arguments Complete {P E}. Arguments start {P E}. Arguments exec {P E R}. Arguments step {P E R}. Arguments post {P E R}. Arguments set_stream {P E}. Arguments set_entry {P E}.
Arguments Tick {P E}. Arguments Subscribe {P E}. Arguments Answered {P E}. Arguments Receive {P E}. Arguments Leave {P E}. Arguments Unguard {P E}. Arguments Post {P E}. Arguments Remove {P E}.
Arguments Judge {P E}. Arguments Evict {P E}. Arguments LSent {P E R}. Arguments LFull {P E R}. Arguments LClosed {P E R}. Arguments LYield {P E R}. Arguments LReply {P E R}. Arguments LEvicted {P E R}.
Arguments Event {E R}. Arguments Undecodable {E R}. Arguments Errors {E R}. Arguments mkstream {P E}. Arguments s_phase {P E}. Arguments s_queue {P E}. Arguments mkbody {P E}.
Arguments mkstate {P E}. Arguments now {P E}. Arguments entries {P E}. Arguments streams {P E}. Arguments doomed {P E}. Arguments late {P E}.
Arguments b_action {P E}. Arguments b_id {P E}. Arguments b_verifier {P E}. Arguments b_payload {P E}. Arguments b_errors {P E}. Arguments try_send {P E R}. Arguments finish {P E}. Arguments doom {P E}. Arguments receive {P E R}.
