(** C77: subscriptions over HTTP callbacks. *)
From Coq Require Import String List Bool NArith.
From Verif Require Import CallbackModel CallbackSpec CallbackProofs CallbackCases.
Import ListNotations.
Local Open Scope string_scope.
Local Open Scope list_scope.

(** A subscription shows the messages sent to it, in order, each once, up to the first that ends it; what it has not shown while it runs is in its channel *)
Theorem C77_delivered : forall P E R (decode : P -> option R) (gone : E) (deadline : N), forall h s tr, fresh P E h -> exec decode gone deadline start h = (s, tr) -> forall id, exists c r b,
  sent P E R id tr = c ++ r /\ shown P E R decode c (yields P E R id tr) b /\
  forall q, streams s id = Some (mkstream Streaming q) -> r = q /\ b = false.
Proof. exact delivered. Qed.
(** Only the holder of the verifier sends to a subscription, and otherwise only the enforcer of heartbeats *)
Theorem C77_authentic : forall P E R (decode : P -> option R) (gone : E) (deadline : N), forall h s tr id m, exec decode gone deadline start h = (s, tr) -> In (LSent id m) tr ->
  exists before e after v, h = before ++ e :: after /\ In (Subscribe id v) before /\ (authentic P E id v e m \/ e = Evict id /\ m = Complete (Some [gone])).
Proof. exact authentic_only. Qed.
(** Which answer a request gets, and that a refused one changes nothing *)
Theorem C77_answer : forall P E R, forall h p b s s' (l : list (label P E R)), post h p b s = (s', l) -> exists r, answer P E R l = [r] /\
  (r = InvalidProtocolHeader <-> h = false) /\
  (r = PayloadParseError <-> h = true /\ b = None) /\
  (r = SubscriptionIdMismatch <-> h = true /\ exists y, b = Some y /\ b_id y <> p) /\
  (r = SubscriptionNotFound <-> h = true /\ exists y, b = Some y /\ b_id y = p /\ entries s p = None) /\
  (r = InvalidVerifier <-> h = true /\ exists y x, b = Some y /\ b_id y = p /\ entries s p = Some x /\ e_verifier x <> b_verifier y) /\
  (r = NoContent \/ r = SubscriptionDropped \/ s' = s).
Proof. exact post_answer. Qed.
(** An event of the holder of the verifier is put in the channel if there is room, passed over if there is none, and refused if nobody listens *)
Theorem C77_taken : forall P E R, forall b p pl x ph q (s : state P E), b_id b = p -> entries s p = Some x -> e_verifier x = b_verifier b -> b_action b = ANext -> b_payload b = Some pl ->
  streams s p = Some (mkstream ph q) ->
  @post P E R true p (Some b) s =
    if match ph with Asking | Streaming => true | _ => false end
    then if Nat.ltb (length q) 16 then (set_stream p (mkstream ph (q ++ [Next pl])) s, [LSent p (Next pl); LReply NoContent]) else (s, [LFull p (Next pl); LReply NoContent])
    else (doom p s, [LClosed p; LReply SubscriptionDropped]).
Proof. exact next_taken. Qed.
(** A completion comes after all events, with its errors, and the subscription is then not registered any more *)
Theorem C77_completion : forall P E R (decode : P -> option R) (gone : E) (deadline : N), forall b p x ph q (s : state P E), b_id b = p -> entries s p = Some x -> e_verifier x = b_verifier b -> b_action b = AComplete ->
  streams s p = Some (mkstream ph q) -> ph = Asking \/ ph = Streaming -> length q < 16 ->
  exists s' l, @post P E R true p (Some b) s = (s', l) /\ streams s' p = Some (mkstream ph (q ++ [Complete (b_errors b)])) /\ answer P E R l = [NoContent] /\
    entries (fst (step decode gone deadline s' (Remove p))) p = None.
Proof. exact completion_taken. Qed.
(** A check is a sign of life *)
Theorem C77_beat : forall P E R, forall b p x (s : state P E), b_id b = p -> entries s p = Some x -> e_verifier x = b_verifier b -> b_action b = ACheck ->
  exists s', @post P E R true p (Some b) s = (s', [LReply NoContent]) /\ now s' = now s /\ streams s' = streams s /\
    exists y, entries s' p = Some y /\ e_verifier y = e_verifier x /\ last_sign y = now s.
Proof. exact beat_taken. Qed.
(** A request does nothing to other subscriptions *)
Theorem C77_apart : forall P E R, forall h p b (s s' : state P E) (l : list (label P E R)) id, id <> p -> post h p b s = (s', l) ->
  streams s' id = streams s id /\ entries s' id = entries s id.
Proof. exact post_apart. Qed.
(** No more than 16 messages wait *)
Theorem C77_bounded : forall P E R (decode : P -> option R) (gone : E) (deadline : N), forall h s tr, fresh P E h -> exec decode gone deadline start h = (s, tr) -> forall id x, streams s id = Some x -> length (s_queue x) <= 16.
Proof. exact bounded. Qed.
(** What is registered has a stream that is not over *)
Theorem C77_registered : forall P E R (decode : P -> option R) (gone : E) (deadline : N), forall h s tr, fresh P E h -> exec decode gone deadline start h = (s, tr) -> forall id e, entries s id = Some e ->
  exists x, streams s id = Some x /\ s_phase x <> Ended.
Proof. exact registered. Qed.
(** A stream that is no longer registered ends after what waits for it *)
Theorem C77_ends : forall P E R (decode : P -> option R) (gone : E) (deadline : N), forall id q s, streams s id = Some (mkstream Streaming q) -> entries s id = None ->
  exists s' tr, exec decode gone deadline s (repeat (Receive id) (S (length q))) = (s', tr) /\ streams s' id = Some (mkstream Ended []) /\ entries s' id = None.
Proof. exact drains. Qed.
(** Only subscriptions that were silent for too long are evicted *)
Theorem C77_silent : forall P E R (decode : P -> option R) (gone : E) (deadline : N), forall h s tr id, exec decode gone deadline start h = (s, tr) -> In (LEvicted id) tr ->
  exists before after s1 a x, h = before ++ Judge id :: after /\ exec decode gone deadline start before = (s1, a) /\ entries s1 id = Some x /\ (deadline < now s1 - last_sign x)%N.
Proof. exact evicted_silent. Qed.
(** ... and those are *)
Theorem C77_evicted : forall P E R (decode : P -> option R) (gone : E) (deadline : N), forall s id x, entries s id = Some x -> (deadline < now s - last_sign x)%N ->
  exists s' tr, exec decode gone deadline s [Judge id; Evict id] = (s', tr) /\ entries s' id = None /\ In (LEvicted id) tr.
Proof. exact silent_evicted. Qed.
Theorem C77_spared : forall P E R (decode : P -> option R) (gone : E) (deadline : N), forall s id x, entries s id = Some x -> (now s - last_sign x <= deadline)%N -> step decode gone deadline s (Judge id) = (s, []).
Proof. exact spared. Qed.
Print Assumptions C77_delivered.
Print Assumptions C77_authentic.
Print Assumptions C77_answer.
Print Assumptions C77_taken.
Print Assumptions C77_completion.
Print Assumptions C77_beat.
Print Assumptions C77_apart.
Print Assumptions C77_bounded.
Print Assumptions C77_registered.
Print Assumptions C77_ends.
Print Assumptions C77_silent.
Print Assumptions C77_evicted.
Print Assumptions C77_spared.

(** The errors that end a subscription are lost if 16 messages wait, though the subgraph is told that they were taken *)
Theorem C77_complete_refuted :
  let h := [Subscribe "a" "secret"; Answered "a" true] ++ repeat (says ANext (Some 1) None) 16 ++ [says AComplete None (Some [7]); Remove "a"] ++ repeat (Receive "a") 17 in
  let '(s, tr) := run h in
  streams s "a" = Some (mkstream Ended []) /\ yields nat nat nat "a" tr = repeat (Event 1) 16 /\ answer nat nat nat tr = repeat NoContent 17.
Proof. vm_compute. auto. Qed.
Print Assumptions C77_complete_refuted.
(** ... and so is the error for a subgraph that is gone *)
Theorem C77_gone_refuted :
  let h := [Subscribe "a" "secret"; Answered "a" true] ++ repeat (says ANext (Some 1) None) 16 ++ [Tick 11; Judge "a"; Evict "a"] ++ repeat (Receive "a") 17 in
  let '(s, tr) := run h in
  streams s "a" = Some (mkstream Ended []) /\ yields nat nat nat "a" tr = repeat (Event 1) 16 /\ In (LEvicted "a") tr.
Proof. vm_compute. repeat split. tauto. Qed.
Print Assumptions C77_gone_refuted.
(** A heartbeat that comes between the two loops of the enforcer is answered with success, and the subscription is evicted *)
Theorem C77_heartbeat_refuted :
  let h := [Subscribe "a" "secret"; Answered "a" true; Tick 11; Judge "a"; says ACheck None None; Evict "a"] in
  let '(s, tr) := run h in
  answer nat nat nat tr = [NoContent] /\ In (LEvicted "a") tr /\ entries s "a" = None /\ sent nat nat nat "a" tr = [Complete (Some [404])].
Proof. vm_compute. repeat split. tauto. Qed.
Print Assumptions C77_heartbeat_refuted.

(** Events before and after the answer to the request, and the end *)
Example C77_example :
  let h := [Subscribe "a" "secret"; says ACheck None None; says ANext (Some 1) None; Answered "a" true; Receive "a"; says ANext (Some 2) None; says AComplete None (Some [7]); Remove "a";
            says ANext (Some 3) None; Receive "a"; Receive "a"] in
  let '(s, tr) := run h in
  yields nat nat nat "a" tr = [Event 1; Event 2; Errors [7]] /\ answer nat nat nat tr = [NoContent; NoContent; NoContent; NoContent; SubscriptionNotFound] /\ streams s "a" = Some (mkstream Ended []) /\ fresh nat nat h.
Proof. vm_compute. repeat split. constructor; [intros [] | constructor]. Qed.
(** A wrong verifier, another path, a body without payload, a stream whose receiver is gone *)
Example C77_example_refused :
  let h := [Subscribe "a" "secret"; Answered "a" true; Post true "a" (Some (mkbody ANext "a" "guess" (Some 1) None)); Post true "b" (Some (mkbody ANext "a" "secret" (Some 1) None));
            Post false "a" None; Post true "a" None; says ANext None None; Leave "a"; says ANext (Some 1) None; Remove "a"; Unguard "a"] in
  let '(s, tr) := run h in
  map (status) (answer nat nat nat tr) = [400; 404; 400; 400; 400; 404]%N /\ sent nat nat nat "a" tr = [] /\ entries s "a" = None.
Proof. vm_compute. auto. Qed.
