(* C69: the subscriptions that share a WebSocket connection to a subgraph. *)
From Coq Require Import String List Bool Arith NArith.
From Verif Require Import StrUtil WcModel WcSpec WcBase WcProofs WcMain WcCases.
Import ListNotations.
Open Scope string_scope.
Open Scope list_scope.

(* The client with its map is, for each subscription, the machine that follows
   this subscription alone. *)
Theorem C69_streams parse tr c k : steps parse start tr = Some c -> numbered k ->
  match since k tr with
  | Some (payload, paths, tail) => of_view c (name k) payload paths (sees parse (name k) payload paths tail)
  | None => unknown c (name k)
  end.
Proof. exact (streams parse tr c k). Qed.
Print Assumptions C69_streams.

(* The map holds the live subscriptions and nothing else. *)
Theorem C69_map parse tr c i paths : steps parse start tr = Some c ->
  (get i (subs c) = Some paths <->
   exists k payload tail, numbered k /\ i = name k /\ since k tr = Some (payload, paths, tail) /\ v_live (sees parse i payload paths tail) = true).
Proof. exact (the_map parse tr c i paths). Qed.
Print Assumptions C69_map.

(* Subscriptions have names of their own. *)
Theorem C69_names j k : name j = name k -> j = k.
Proof. exact (name_inj j k). Qed.
Print Assumptions C69_names.

(* A stream that ended has the responses to its subscription up to the first
   message that ended it, and what this message says; whatever came later, or
   for others, is not in it. *)
Theorem C69_ended parse tr c k payload paths tail ch : steps parse start tr = Some c -> numbered k -> since k tr = Some (payload, paths, tail) ->
  get (name k) (channels c) = Some ch -> ch_open ch = false ->
  exists l x r, tail = l ++ x :: r /\ (forall y, In y l -> ~ over (name k) y) /\ over (name k) x /\
                ch_items ch = answers parse (name k) paths l ++ last_words x.
Proof. exact (stream_ended parse tr c k payload paths tail ch). Qed.
Print Assumptions C69_ended.

(* A stream that did not end has all the responses, and there was nothing to
   end it. *)
Theorem C69_open parse tr c k payload paths tail ch : steps parse start tr = Some c -> numbered k -> since k tr = Some (payload, paths, tail) ->
  get (name k) (channels c) = Some ch -> ch_open ch = true -> (In (name k) (held c) \/ starting c = Some (name k, payload)) ->
  (forall y, In y tail -> ~ over (name k) y) /\ ch_items ch = answers parse (name k) paths tail.
Proof. exact (stream_open parse tr c k payload paths tail ch). Qed.
Print Assumptions C69_open.

(* What is written about a subscription: nothing, a [subscribe], or a
   [subscribe] and later one [complete]. *)
Theorem C69_protocol parse tr c id : steps parse start tr = Some c ->
  filter (about id) (written c) = [] \/
  exists payload, filter (about id) (written c) = [WSubscribe id payload] \/ filter (about id) (written c) = [WSubscribe id payload; WComplete id].
Proof. exact (protocol parse tr c id). Qed.
Print Assumptions C69_protocol.

(* A [complete] is written exactly if the consumer drops its stream, after the
   [subscribe] was written and before the server ended it. *)
Theorem C69_complete parse tr c k payload paths tail : steps parse start tr = Some c -> numbered k -> since k tr = Some (payload, paths, tail) ->
  (In (WComplete (name k)) (written c) <->
   exists a b d, tail = a ++ Sent :: b ++ Drop (name k) :: d /\
     (forall x, In x a -> ~ over (name k) x /\ x <> Sent /\ (forall w, x <> NotSent w)) /\
     (forall x, In x b -> ~ over (name k) x /\ x <> Drop (name k))).
Proof. exact (complete_iff parse tr c k payload paths tail). Qed.
Print Assumptions C69_complete.

(* All else that is written: a pong for each ping, a close frame for what
   cannot be read, and one when the client is dropped; in this order. *)
Theorem C69_replies parse tr c : steps parse start tr = Some c -> filter general (written c) = flat_map says tr.
Proof. exact (general_all parse tr c). Qed.
Print Assumptions C69_replies.

(* Names that are used up are not given again. *)
Theorem C69_exhausted parse tr c p q c' : steps parse start tr = Some c -> ~ numbered (calls tr) -> step parse c (Begin p q) = Some c' -> c' = c.
Proof. exact (exhausted parse tr c p q c'). Qed.
Print Assumptions C69_exhausted.

(* The dispatcher runs until the connection ends. *)
Theorem C69_running parse tr c : steps parse start tr = Some c -> (running c = true <-> forall a, In a tr -> ~ dead a).
Proof. exact (running_all parse tr c). Qed.
Print Assumptions C69_running.

(* When it ends no subscription is left in the map. *)
Theorem C69_told parse c a c' : step parse c a = Some c' -> dead a -> subs c' = [].
Proof. exact (told_step parse c a c'). Qed.
Print Assumptions C69_told.

(* A subscription that starts later is put there, and its stream neither
   yields nor ends. *)
Theorem C69_late_refuted parse : steps parse start closed_first = Some closed_state /\ running closed_state = false /\ In "1" (held closed_state) /\
  subs closed_state <> [] /\ forall more c, steps parse closed_state more = Some c -> get "1" (channels c) = Some (mkchan [] true).
Proof.
  split; [exact (closed_steps parse)|]. split; [reflexivity|]. split; [left; reflexivity|]. split; [discriminate|]. exact (closed_later parse).
Qed.
Print Assumptions C69_late_refuted.

(* A subscription whose start is given up is not completed, though its message
   may have been written. *)
Theorem C69_given_up_refuted parse : exists c, steps parse start [Begin "subscription { a }" ""; NotSent true] = Some c /\
  written c = [WSubscribe "1" "subscription { a }"] /\ subs c = [] /\ held c = [].
Proof. eexists. split; [cbn; reflexivity|]. repeat split. Qed.
Print Assumptions C69_given_up_refuted.

(* ** The handshake *)
Theorem C69_acked pre rest : Forall idle pre -> init (pre ++ Frame (RText (Some SAck)) :: rest) = (WInit :: flat_map answer pre, Ready rest).
Proof. exact (init_acked pre rest). Qed.
Print Assumptions C69_acked.

Theorem C69_waits l : Forall idle l -> init l = (WInit :: flat_map answer l, Waiting).
Proof. exact (init_waits l). Qed.
Print Assumptions C69_waits.

Theorem C69_refuses pre x rest w e : Forall idle pre -> init_refused x w e -> init (pre ++ x :: rest) = (WInit :: flat_map answer pre ++ w, Refused e).
Proof. exact (init_fails pre x rest w e). Qed.
Print Assumptions C69_refuses.

(* Before the acknowledgement come only messages that may, or frames that
   cannot be read. *)
Theorem C69_ready_partial l ws rest : init l = (ws, Ready rest) ->
  exists pre, l = pre ++ Frame (RText (Some SAck)) :: rest /\ Forall (fun r => idle r \/ unreadable r) pre.
Proof. exact (init_ready l ws rest). Qed.
Print Assumptions C69_ready_partial.

(* A frame that cannot be read is answered by closing the connection, on which
   the handshake then succeeds. *)
Theorem C69_ready_refuted : init [Frame RBinary; Frame (RText (Some SAck))] = ([WInit; WClose 1003%N "Unsupported message type"], Ready []).
Proof. vm_compute. reflexivity. Qed.
Print Assumptions C69_ready_refuted.

(* ** Not vacuous *)
Example C69_busy : exists c, steps ok start busy = Some c /\
  written c = [WSubscribe "1" "subscription { a }"; WSubscribe "2" "subscription { b }"; WPong; WSubscribe "4" "subscription { d }"; WComplete "2"] /\
  get "1" (channels c) = Some (mkchan [Response "x"; Failed BadPayload] false) /\
  get "2" (channels c) = Some (mkchan [Response "y"; Response "v"] true) /\
  get "3" (channels c) = Some (mkchan [] true) /\
  get "4" (channels c) = Some (mkchan [Failed DispatcherClosed] false) /\
  held c = ["4"] /\ subs c = [] /\ running c = false.
Proof. eexists. split; [vm_compute; reflexivity|]. vm_compute. repeat split. Qed.
Example C69_one : since 1 busy = Some ("subscription { b }", "", skipn 3 busy) /\ name 1 = "2".
Proof. vm_compute. split; reflexivity. Qed.
